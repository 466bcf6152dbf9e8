From Verif Require Import QuadModel QuadSpec QuadProofs.
From Coq Require Import ZifyBool.
Open Scope R_scope.
Local Opaque Nat.div Nat.modulo.

(** weights of the i-th pair of cells *)
Definition wl pts fr i := simpson_left (point pts fr (2*i+1) - point pts fr (2*i))
                                       (point pts fr (2*i+2) - point pts fr (2*i+1)).
Definition wm pts fr i := simpson_mid (point pts fr (2*i+1) - point pts fr (2*i))
                                      (point pts fr (2*i+2) - point pts fr (2*i+1)).
Definition wrr pts fr i := simpson_right (point pts fr (2*i+1) - point pts fr (2*i))
                                       (point pts fr (2*i+2) - point pts fr (2*i+1)).

Lemma dl_c pts fr k i : (0 <= fr)%Z -> k = (fr + Z.of_nat i * 2 + 1)%Z ->
  (Z.to_nat fr + 2 * i + 1 < length pts)%nat ->
  distance_at_left pts k = Ok (point pts fr (2*i+1) - point pts fr (2*i)).
Proof.
  intros H -> L. rewrite (dist_left_ok pts fr _ (2*i)) by lia.
  do 3 f_equal; lia.
Qed.
Lemma dr_c pts fr k i : (0 <= fr)%Z -> k = (fr + Z.of_nat i * 2 + 1)%Z ->
  (Z.to_nat fr + 2 * i + 2 < length pts)%nat ->
  distance_at_right pts k = Ok (point pts fr (2*i+2) - point pts fr (2*i+1)).
Proof.
  intros H -> L. rewrite (dist_right_ok pts fr _ (2*i+1)) by lia.
  do 3 f_equal; lia.
Qed.

Lemma upd_shift g k j (v : R) : upd g k v j = if (j =? k)%nat then v else g j.
Proof. unfold upd. destruct (Nat.eqb_spec j k); subst; auto. Qed.

(** the first two loops *)
Lemma centre_left_ok pts b0 fr o N m c z :
  (0 <= fr)%Z -> fr = (b0 + Z.of_nat o)%Z -> (Z.to_nat fr + 2 * m < length pts)%nat ->
  length c = N -> (o + 2 * m <= N)%nat -> z = Z.of_nat m ->
  exists c' g, range_policy z (fun i c =>
     let idx_c := (fr + Z.of_nat i * 2 + 1)%Z in
     let* dl := distance_at_left pts idx_c in
     let* dr := distance_at_right pts idx_c in
     let* c := wr c (idx_c - 1 - b0) (simpson_left dl dr) in
     wr c (idx_c - b0) (simpson_mid dl dr)) c = Ok c' /\ shows N c' g /\
   (forall i, (i < m)%nat -> g (o + 2 * i)%nat = wl pts fr i /\ g (o + 2 * i + 1)%nat = wm pts fr i) /\
   (forall k, (k < o \/ o + 2 * m <= k)%nat -> g k = nth k c 0).
Proof.
  intros Hfr Ho Hl Hc HN Hz.
  destruct (range_policy_inv (fun j c' => exists g, shows N c' g /\
    (forall i, (i < j)%nat -> g (o + 2 * i)%nat = wl pts fr i /\ g (o + 2 * i + 1)%nat = wm pts fr i) /\
    (forall k, (k < o \/ o + 2 * j <= k)%nat -> g k = nth k c 0)) z m
    (fun i c =>
     let idx_c := (fr + Z.of_nat i * 2 + 1)%Z in
     let* dl := distance_at_left pts idx_c in
     let* dr := distance_at_right pts idx_c in
     let* c := wr c (idx_c - 1 - b0) (simpson_left dl dr) in
     wr c (idx_c - b0) (simpson_mid dl dr)) c Hz) as [c' [E [g [H1 [H2 H3]]]]].
  - exists (fun k => nth k c 0). split; [rewrite <- Hc; apply shows_refl|]. split; intros; [lia|auto].
  - intros i s Hi [g [Hs [HI HO]]]. cbv zeta.
    rewrite (dl_c pts fr _ i), (dr_c pts fr _ i) by lia. cbn [bind].
    fold (wl pts fr i). fold (wm pts fr i).
    destruct (wr_shows N s g (fr + Z.of_nat i * 2 + 1 - 1 - b0) (wl pts fr i) Hs) as [s1 [E1 S1]]; [lia|].
    rewrite E1. cbn [bind].
    destruct (wr_shows N s1 _ (fr + Z.of_nat i * 2 + 1 - b0) (wm pts fr i) S1) as [s2 [E2 S2]]; [lia|].
    exists s2. split; [exact E2|]. eexists; split; [exact S2|].
    replace (Z.to_nat (fr + Z.of_nat i * 2 + 1 - 1 - b0)) with (o + 2 * i)%nat by lia.
    replace (Z.to_nat (fr + Z.of_nat i * 2 + 1 - b0)) with (o + 2 * i + 1)%nat by lia.
    split.
    + intros k Hk. rewrite !upd_shift.
      destruct (Nat.eqb_spec (o + 2 * k) (o + 2 * i + 1)); [lia|].
      destruct (Nat.eqb_spec (o + 2 * k) (o + 2 * i)).
      * assert (k = i) by lia. subst k. split; [reflexivity|].
        rewrite Nat.eqb_refl. reflexivity.
      * destruct (Nat.eqb_spec (o + 2 * k + 1) (o + 2 * i + 1)); [lia|].
        destruct (Nat.eqb_spec (o + 2 * k + 1) (o + 2 * i)); [lia|]. apply HI. lia.
    + intros k Hk. rewrite !upd_shift.
      destruct (Nat.eqb_spec k (o + 2 * i + 1)); [lia|].
      destruct (Nat.eqb_spec k (o + 2 * i)); [lia|]. apply HO. lia.
  - exists c', g. auto.
Qed.

Lemma overlap_ok pts b0 fr o N m c z g0 :
  (0 <= fr)%Z -> fr = (b0 + Z.of_nat o)%Z -> (Z.to_nat fr + 2 * m < length pts)%nat ->
  shows N c g0 -> (o + 2 * m < N)%nat -> z = Z.of_nat m ->
  exists c' g, range_policy z (fun i c =>
     let idx_c := (fr + Z.of_nat i * 2 + 1)%Z in
     let* dl := distance_at_left pts idx_c in
     let* dr := distance_at_right pts idx_c in
     add_at c (idx_c + 1 - b0) (simpson_right dl dr)) c = Ok c' /\ shows N c' g /\
   (forall i, (i < m)%nat -> g (o + 2 * i + 2)%nat = g0 (o + 2 * i + 2)%nat + wrr pts fr i) /\
   (forall k, (forall i, (i < m)%nat -> k <> (o + 2 * i + 2)%nat) -> g k = g0 k).
Proof.
  intros Hfr Ho Hl Hc HN Hz.
  destruct (range_policy_inv (fun j c' => exists g, shows N c' g /\
   (forall i, (i < j)%nat -> g (o + 2 * i + 2)%nat = g0 (o + 2 * i + 2)%nat + wrr pts fr i) /\
   (forall k, (forall i, (i < j)%nat -> k <> (o + 2 * i + 2)%nat) -> g k = g0 k)) z m
   (fun i c =>
     let idx_c := (fr + Z.of_nat i * 2 + 1)%Z in
     let* dl := distance_at_left pts idx_c in
     let* dr := distance_at_right pts idx_c in
     add_at c (idx_c + 1 - b0) (simpson_right dl dr)) c Hz) as [c' [E [g [H1 [H2 H3]]]]].
  - exists g0. split; [auto|]. split; intros; [lia|auto].
  - intros i s Hi [g [Hs [HI HO]]]. cbv zeta.
    rewrite (dl_c pts fr _ i), (dr_c pts fr _ i) by lia. cbn [bind].
    fold (wrr pts fr i).
    destruct (add_shows N s g (fr + Z.of_nat i * 2 + 1 + 1 - b0) (wrr pts fr i) Hs) as [s1 [E1 S1]]; [lia|].
    exists s1. split; [exact E1|]. eexists; split; [exact S1|].
    replace (Z.to_nat (fr + Z.of_nat i * 2 + 1 + 1 - b0)) with (o + 2 * i + 2)%nat by lia.
    split.
    + intros k Hk. rewrite !upd_shift.
      destruct (Nat.eqb_spec (o + 2 * k + 2) (o + 2 * i + 2)).
      * assert (k = i) by lia. subst k. rewrite HO; [reflexivity|]. intros; lia.
      * apply HI. lia.
    + intros k Hk. rewrite !upd_shift.
      destruct (Nat.eqb_spec k (o + 2 * i + 2)) as [->|].
      * exfalso. apply (Hk i); auto.
      * apply HO. intros. apply Hk. lia.
  - exists c', g. auto.
Qed.

(** assembled coefficients on an odd number of points, at offset [o] of the storage *)
Definition simpson_shape pts fr o m (c : nat -> R) : Prop :=
  (forall i, (i < m)%nat -> c (o + 2 * i + 1)%nat = wm pts fr i) /\
  c o = wl pts fr 0 /\ c (o + 2 * m)%nat = wrr pts fr (m - 1) /\
  (forall i, (i < m - 1)%nat -> c (o + 2 * i + 2)%nat = wrr pts fr i + wl pts fr (S i)).

Lemma fill_np pts b0 fr o N m c :
  (0 <= fr)%Z -> fr = (b0 + Z.of_nat o)%Z -> (1 <= m)%nat ->
  (Z.to_nat fr + 2 * m < length pts)%nat -> length c = N -> (o + 2 * m < N)%nat ->
  exists c' g, fill_simpson false pts b0 fr (2 * m + 1) c = Ok c' /\ shows N c' g /\
    simpson_shape pts fr o m g /\
    (forall k, (k < o \/ o + 2 * m < k)%nat -> g k = nth k c 0).
Proof.
  intros Hfr Ho Hm Hl Hc HN. unfold fill_simpson. cbv zeta.
  replace (Nat.even (2 * m + 1)) with false
    by (rewrite Nat.add_1_r, Nat.even_succ, <- Nat.negb_even, Nat.even_mul; reflexivity).
  destruct (centre_left_ok pts b0 fr o N m c (Z.of_nat (2 * m + 1) / 2 - 0)) as [c1 [g1 [E1 [S1 [A1 B1]]]]];
    auto; [lia | Z.to_euclidean_division_equations; lia | ].
  cbv zeta in E1. cbv iota. rewrite E1. cbn [bind].
  destruct (overlap_ok pts b0 fr o N (m - 1) c1 (Z.of_nat (2 * m + 1) / 2 - 0 - 1) g1)
    as [c2 [g2 [E2 [S2 [A2 B2]]]]];
    auto; [lia | lia | Z.to_euclidean_division_equations; lia | ].
  cbv zeta in E2. rewrite E2. cbn [bind].
  rewrite (dl_c pts fr _ (m - 1)), (dr_c pts fr _ (m - 1)) by lia. cbn [bind].
  fold (wrr pts fr (m - 1)).
  match goal with |- context [wr c2 ?i ?v] =>
    destruct (wr_shows N c2 g2 i v S2) as [c3 [E3 S3]]; [lia|];
    replace (Z.to_nat i) with (o + 2 * m)%nat in S3 by lia end.
  rewrite E3. cbn [bind]. exists c3. eexists. split; [reflexivity|]. split; [exact S3|].
  split; [split; [|split; [|split]] |].
  - intros i Hi. rewrite upd_shift. destruct (Nat.eqb_spec (o + 2 * i + 1) (o + 2 * m)); [lia|].
    rewrite B2 by (intros; lia). apply A1; auto.
  - rewrite upd_shift. destruct (Nat.eqb_spec o (o + 2 * m)); [lia|].
    rewrite B2 by (intros; lia). destruct (A1 O) as [A _]; [lia|].
    replace (o + 2 * 0)%nat with o in A by lia. exact A.
  - rewrite upd_shift, Nat.eqb_refl. reflexivity.
  - intros i Hi. rewrite upd_shift. destruct (Nat.eqb_spec (o + 2 * i + 2) (o + 2 * m)); [lia|].
    rewrite A2 by lia. replace (o + 2 * i + 2)%nat with (o + 2 * (S i))%nat by lia.
    destruct (A1 (S i)) as [-> _]; [lia|]. ring.
  - intros k Hk. rewrite upd_shift. destruct (Nat.eqb_spec k (o + 2 * m)); [lia|].
    rewrite B2 by (intros; lia). apply B1. lia.
Qed.

(** periodic: 2m points, m >= 2 *)
Definition simpson_shape_per pts fr m (c : nat -> R) : Prop :=
  (forall i, (i < m)%nat -> c (2 * i + 1)%nat = wm pts fr i) /\
  c O = wl pts fr 0 + wrr pts fr (m - 1) /\
  (forall i, (i < m - 1)%nat -> c (2 * i + 2)%nat = wrr pts fr i + wl pts fr (S i)).

Lemma fill_per pts fr m c :
  (0 <= fr)%Z -> (2 <= m)%nat ->
  (Z.to_nat fr + 2 * m < length pts)%nat -> length c = (2 * m)%nat ->
  exists c' g, simpson_coefficients true pts fr (2 * m) c = Ok c' /\ shows (2 * m) c' g /\
    simpson_shape_per pts fr m g.
Proof.
  intros Hfr Hm Hl Hc. unfold simpson_coefficients, fill_simpson. cbv zeta.
  replace (Nat.even (2 * m)) with true by (rewrite Nat.even_mul; reflexivity).
  destruct (centre_left_ok pts fr fr O (2 * m) (m - 1) c (Z.of_nat (2 * m) / 2 - 1)) as [c1 [g1 [E1 [S1 [A1 B1]]]]];
    auto; [lia | lia | lia | Z.to_euclidean_division_equations; lia | ].
  cbv zeta in E1. cbv iota. cbn [negb]. rewrite E1. cbn [bind].
  destruct (overlap_ok pts fr fr O (2 * m) (m - 2) c1 (Z.of_nat (2 * m) / 2 - 1 - 1) g1)
    as [c2 [g2 [E2 [S2 [A2 B2]]]]];
    auto; [lia | lia | lia | Z.to_euclidean_division_equations; lia | ].
  cbv zeta in E2. rewrite E2. cbn [bind].
  rewrite (dl_c pts fr _ (m - 2)), (dr_c pts fr _ (m - 2)) by lia. cbn [bind].
  fold (wrr pts fr (m - 2)).
  match goal with |- context [wr c2 ?i ?v] =>
    destruct (wr_shows (2 * m) c2 g2 i v S2) as [c3 [E3 S3]]; [lia|];
    replace (Z.to_nat i) with (2 * m - 2)%nat in S3 by lia end.
  rewrite E3. cbn [bind].
  rewrite (dl_c pts fr _ (m - 1)), (dr_c pts fr _ (m - 1)) by lia. cbn [bind].
  fold (wl pts fr (m - 1)). fold (wm pts fr (m - 1)). fold (wrr pts fr (m - 1)).
  match goal with |- context [add_at c3 ?i ?v] =>
    destruct (add_shows (2 * m) c3 _ i v S3) as [c4 [E4 S4]]; [lia|];
    replace (Z.to_nat i) with (2 * m - 2)%nat in S4 by lia end.
  rewrite E4. cbn [bind].
  match goal with |- context [wr c4 ?i ?v] =>
    destruct (wr_shows (2 * m) c4 _ i v S4) as [c5 [E5 S5]]; [lia|];
    replace (Z.to_nat i) with (2 * m - 1)%nat in S5 by lia end.
  rewrite E5. cbn [bind].
  match goal with |- context [add_at c5 ?i ?v] =>
    destruct (add_shows (2 * m) c5 _ i v S5) as [c6 [E6 S6]]; [lia|];
    replace (Z.to_nat i) with O in S6 by lia end.
  exists c6. eexists. split; [exact E6|]. split; [exact S6|].
  split; [|split].
  - intros i Hi. rewrite !upd_shift.
    destruct (Nat.eqb_spec (2 * i + 1) 0); [lia|].
    destruct (Nat.eqb_spec (2 * i + 1) (2 * m - 1)).
    + replace i with (m - 1)%nat by lia. reflexivity.
    + destruct (Nat.eqb_spec (2 * i + 1) (2 * m - 2)); [lia|].
      rewrite B2 by (intros; lia). apply A1; lia.
  - rewrite !upd_shift. destruct (Nat.eqb_spec 0 0); [|lia].
    destruct (Nat.eqb_spec 0 (2 * m - 1)); [lia|].
    destruct (Nat.eqb_spec 0 (2 * m - 2)); [lia|].
    rewrite B2 by (intros; lia). f_equal. destruct (A1 O) as [A _]; [lia|]. exact A.
  - intros i Hi. rewrite !upd_shift.
    destruct (Nat.eqb_spec (2 * i + 2) 0); [lia|].
    destruct (Nat.eqb_spec (2 * i + 2) (2 * m - 1)); [lia|].
    rewrite Nat.eqb_refl.
    destruct (Nat.eqb_spec (2 * i + 2) (2 * m - 2)).
    + replace i with (m - 2)%nat by lia. f_equal. f_equal. lia.
    + change (2 * i + 2)%nat with (0 + 2 * i + 2)%nat. rewrite A2 by lia.
      replace (0 + 2 * i + 2)%nat with (0 + 2 * (S i))%nat by lia.
      destruct (A1 (S i)) as [-> _]; [lia|]. ring.
Qed.

(** ** Sums by pairs *)
Lemma Rsum_pairs m (h : nat -> R) :
  Rsum (2 * m) h = Rsum m (fun i => h (2 * i)%nat + h (2 * i + 1)%nat).
Proof.
  induction m as [|m IH]; [reflexivity|].
  replace (2 * S m)%nat with (S (S (2 * m))) by lia.
  cbn [Rsum]. rewrite IH. replace (S (2 * m)) with (2 * m + 1)%nat by lia. ring.
Qed.

Lemma simpson_sum pts fr o m c (f : nat -> R) : (1 <= m)%nat -> simpson_shape pts fr o m c ->
  Rsum (2 * m + 1) (fun k => c (o + k)%nat * f k) =
  Rsum m (fun i => wl pts fr i * f (2 * i)%nat + wm pts fr i * f (2 * i + 1)%nat
                   + wrr pts fr i * f (2 * i + 2)%nat).
Proof.
  intros Hm [Hmid [H0 [Hlast Hov]]].
  rewrite Nat.add_1_r. cbn [Rsum]. rewrite Rsum_pairs.
  rewrite (Rsum_ext m _ (fun i => (c (o + 2 * i)%nat * f (2 * i)%nat) + wm pts fr i * f (2 * i + 1)%nat)).
  2:{ intros i Hi. f_equal. rewrite <- Hmid by auto. rewrite Nat.add_assoc. reflexivity. }
  rewrite Rsum_plus.
  rewrite (Rsum_ext m (fun i => wl pts fr i * f (2 * i)%nat + wm pts fr i * f (2 * i + 1)%nat
                   + wrr pts fr i * f (2 * i + 2)%nat)
     (fun i => wm pts fr i * f (2 * i + 1)%nat +
        (wl pts fr i * f (2 * i)%nat + wrr pts fr i * f (2 * S i)%nat))).
  2:{ intros i Hi. replace (2 * S i)%nat with (2 * i + 2)%nat by lia. ring. }
  rewrite (Rsum_plus m (fun i => wm pts fr i * f (2 * i + 1)%nat)).
  destruct m as [|m]; [lia|].
  rewrite <- (assemble m (wl pts fr) (wrr pts fr) (fun i => c (o + 2 * i)%nat) (fun i => f (2 * i)%nat)).
  - cbn [Rsum]. ring.
  - rewrite <- H0. f_equal. lia.
  - rewrite Hlast. f_equal. lia.
  - intros i Hi. replace (o + 2 * S i)%nat with (o + 2 * i + 2)%nat by lia. apply Hov. lia.
Qed.

Lemma simpson_sum_per pts fr m c (f : nat -> R) : (1 <= m)%nat -> simpson_shape_per pts fr m c ->
  f (2 * m)%nat = f O ->
  Rsum (2 * m) (fun k => c k * f k) =
  Rsum m (fun i => wl pts fr i * f (2 * i)%nat + wm pts fr i * f (2 * i + 1)%nat
                   + wrr pts fr i * f (2 * i + 2)%nat).
Proof.
  intros Hm [Hmid [H0 Hov]] Hf.
  rewrite Rsum_pairs.
  rewrite (Rsum_ext m _ (fun i => (c (2 * i)%nat * f (2 * i)%nat) + wm pts fr i * f (2 * i + 1)%nat)).
  2:{ intros i Hi. f_equal. rewrite <- Hmid by auto. reflexivity. }
  rewrite Rsum_plus.
  rewrite (Rsum_ext m (fun i => wl pts fr i * f (2 * i)%nat + wm pts fr i * f (2 * i + 1)%nat
                   + wrr pts fr i * f (2 * i + 2)%nat)
     (fun i => wm pts fr i * f (2 * i + 1)%nat +
        (wl pts fr i * f (2 * i)%nat + wrr pts fr i * f (2 * S i)%nat))).
  2:{ intros i Hi. replace (2 * S i)%nat with (2 * i + 2)%nat by lia. ring. }
  rewrite (Rsum_plus m (fun i => wm pts fr i * f (2 * i + 1)%nat)).
  destruct m as [|m]; [lia|].
  rewrite <- (assemble_per m (wl pts fr) (wrr pts fr) (fun i => c (2 * i)%nat) (fun i => f (2 * i)%nat)).
  - ring.
  - simpl in H0. rewrite Nat.sub_0_r in H0. exact H0.
  - rewrite Hf. reflexivity.
  - intros i Hi. replace (2 * S i)%nat with (2 * i + 2)%nat by lia. apply Hov. lia.
Qed.

Lemma pairs_integral pts fr m F f : increasing pts -> (Z.to_nat fr + 2 * m < length pts)%nat ->
  quadratic_on_pairs pts fr m f ->
  antiderivative_on F f (point pts fr 0) (point pts fr (2 * m)) ->
  Rsum m (fun i => wl pts fr i * f (point pts fr (2 * i)) + wm pts fr i * f (point pts fr (2 * i + 1))
                   + wrr pts fr i * f (point pts fr (2 * i + 2)))
  = F (point pts fr (2 * m)) - F (point pts fr 0).
Proof.
  intros Hinc Hl Hq HF.
  change (point pts fr 0) with (point pts fr (2 * 0)).
  rewrite <- (Rsum_telescope m (fun i => F (point pts fr (2 * i)))).
  apply Rsum_ext. intros i Hi. replace (2 * S i)%nat with (2 * i + 2)%nat by lia.
  destruct (Hq i Hi) as [a [b [c Hf]]].
  rewrite (quad_cell F f a b c (point pts fr (2 * i)) (point pts fr (2 * i + 1)) (point pts fr (2 * i + 2))).
  - reflexivity.
  - apply point_lt; auto; lia.
  - apply point_lt; auto; lia.
  - auto.
  - eapply antiderivative_sub; [exact HF| |].
    + destruct i; [simpl; lra|]. left. apply point_lt; auto; lia.
    + destruct (Nat.eq_dec (2 * i + 2) (2 * m)) as [->|]; [lra|]. left. apply point_lt; auto; lia.
Qed.

Lemma quadratic_pairs pts fr m f : quadratic f -> quadratic_on_pairs pts fr m f.
Proof. intros [a [b [c H]]] i _. exists a, b, c. auto. Qed.

Lemma quad_value_shows pts fr n c g f : shows n c g ->
  quad_value pts fr n c f = Rsum n (fun k => g k * f (point pts fr k)).
Proof. intros [L H]. apply Rsum_ext. intros k Hk. rewrite H; auto. Qed.

Theorem simpson_np pts fr m c0 :
  increasing pts -> (0 <= fr)%Z -> (1 <= m)%nat -> (Z.to_nat fr + 2 * m < length pts)%nat ->
  length c0 = (2 * m + 1)%nat ->
  exists c, simpson_coefficients false pts fr (2 * m + 1) c0 = Ok c /\ length c = (2 * m + 1)%nat /\
    forall f F, quadratic_on_pairs pts fr m f ->
      antiderivative_on F f (point pts fr 0) (point pts fr (2 * m)) ->
      quad_value pts fr (2 * m + 1) c f = F (point pts fr (2 * m)) - F (point pts fr 0).
Proof.
  intros Hinc Hfr Hm Hl Hc.
  destruct (fill_np pts fr fr 0 (2 * m + 1) m c0) as [c [g [E [S [H _]]]]]; auto; try lia.
  exists c. split; [exact E|]. split; [apply S|].
  intros f F Hf HF. rewrite (quad_value_shows _ _ _ _ _ _ S).
  rewrite (Rsum_ext _ _ (fun k => g (0 + k)%nat * f (point pts fr k))) by reflexivity.
  rewrite (simpson_sum pts fr 0 m g (fun k => f (point pts fr k)) Hm H).
  apply pairs_integral; auto.
Qed.

Theorem simpson_per pts fr m c0 :
  increasing pts -> (0 <= fr)%Z -> (2 <= m)%nat -> (Z.to_nat fr + 2 * m < length pts)%nat ->
  length c0 = (2 * m)%nat ->
  exists c, simpson_coefficients true pts fr (2 * m) c0 = Ok c /\ length c = (2 * m)%nat /\
    forall f F, quadratic_on_pairs pts fr m f ->
      f (point pts fr (2 * m)) = f (point pts fr 0) ->
      antiderivative_on F f (point pts fr 0) (point pts fr (2 * m)) ->
      quad_value pts fr (2 * m) c f = F (point pts fr (2 * m)) - F (point pts fr 0).
Proof.
  intros Hinc Hfr Hm Hl Hc.
  destruct (fill_per pts fr m c0) as [c [g [E [S H]]]]; auto; try lia.
  exists c. split; [exact E|]. split; [apply S|].
  intros f F Hq Hp HF. rewrite (quad_value_shows _ _ _ _ _ _ S).
  rewrite (simpson_sum_per pts fr m g (fun k => f (point pts fr k))); auto; try lia.
  apply pairs_integral; auto.
Qed.

(** ** Mixed rule *)
Lemma simpson_even_throws pts b0 fr m c : fill_simpson false pts b0 fr (2 * m) c = Throw.
Proof.
  unfold fill_simpson. replace (Nat.even (2 * m)) with true by (rewrite Nat.even_mul; reflexivity).
  reflexivity.
Qed.

Lemma simpson_odd_throws pts b0 fr m c : fill_simpson true pts b0 fr (2 * m + 1) c = Throw.
Proof.
  unfold fill_simpson. replace (Nat.even (2 * m + 1)) with false
    by (rewrite Nat.add_1_r, Nat.even_succ, <- Nat.negb_even, Nat.even_mul; reflexivity).
  reflexivity.
Qed.

Lemma affine_quadratic f : affine f -> quadratic f.
Proof. intros [a [b H]]. exists a, b, 0. intros t. rewrite H. ring. Qed.

Lemma half_integral pts fr i f F : increasing pts -> (Z.to_nat fr + S i < length pts)%nat -> affine f ->
  antiderivative_on F f (point pts fr i) (point pts fr (S i)) ->
  half_cell pts fr i * f (point pts fr i) + half_cell pts fr i * f (point pts fr (S i))
  = F (point pts fr (S i)) - F (point pts fr i).
Proof.
  intros Hinc Hl [a [b H]] HF.
  rewrite (affine_cell F f a b (point pts fr i) (point pts fr (S i))); auto.
  - unfold half_cell. ring.
  - apply point_lt; auto.
Qed.

Lemma point_succ pts fr i : (0 <= fr)%Z -> point pts (fr + 1) i = point pts fr (S i).
Proof. intros. unfold point. f_equal. lia. Qed.

Theorem mixed_even pts fr m ext c1 c2 :
  increasing pts -> (0 <= fr)%Z -> (2 <= m)%nat -> (Z.to_nat fr + 2 * m <= length pts)%nat ->
  length c1 = (2 * m)%nat -> length c2 = (2 * m)%nat ->
  exists c, simpson_trapezoid_coefficients pts fr (2 * m) ext c1 c2 = Ok c /\ length c = (2 * m)%nat /\
    (forall f F, affine f ->
      antiderivative_on F f (point pts fr 0) (point pts fr (2 * m - 1)) ->
      quad_value pts fr (2 * m) c f = F (point pts fr (2 * m - 1)) - F (point pts fr 0)) /\
    (forall f F, quadratic f ->
      antiderivative_on F f (point pts fr 0) (point pts fr (2 * m - 1)) ->
      let e := match ext with FRONT => 0%nat | BACK => (2 * m - 2)%nat end in
      quad_value pts fr (2 * m) c f - (F (point pts fr (2 * m - 1)) - F (point pts fr 0))
      = (point pts fr (S e) - point pts fr e) * (f (point pts fr e) + f (point pts fr (S e))) / 2
        - (F (point pts fr (S e)) - F (point pts fr e))).
Proof.
  intros Hinc Hfr Hm Hl Hc1 Hc2.
  assert (G : exists c, simpson_trapezoid_coefficients pts fr (2 * m) ext c1 c2 = Ok c /\
    length c = (2 * m)%nat /\
    (forall f F, quadratic f ->
      antiderivative_on F f (point pts fr 0) (point pts fr (2 * m - 1)) ->
      let e := match ext with FRONT => 0%nat | BACK => (2 * m - 2)%nat end in
      quad_value pts fr (2 * m) c f - (F (point pts fr (2 * m - 1)) - F (point pts fr 0))
      = half_cell pts fr e * f (point pts fr e) + half_cell pts fr e * f (point pts fr (S e))
        - (F (point pts fr (S e)) - F (point pts fr e)))).
  { unfold simpson_trapezoid_coefficients.
    unfold simpson_coefficients. rewrite simpson_even_throws.
    destruct (Nat.eqb_spec (2 * m) 0); [lia|].
    destruct ext.
    - replace (2 * m - 1)%nat with (2 * (m - 1) + 1)%nat by lia.
      destruct (fill_np pts fr (fr + 1) 1 (2 * m) (m - 1) c2) as [c [g [E [S [H HO]]]]]; auto; try lia.
      rewrite E. cbn [bind]. rewrite (dist_right_ok pts fr fr 0) by lia. cbn [bind].
      match goal with |- context [wr c ?i ?v] =>
        destruct (wr_shows (2 * m) c g i v S) as [c3 [E3 S3]]; [lia|];
        replace (Z.to_nat i) with O in S3 by lia; rewrite E3 end.
      cbn [bind].
      match goal with |- context [add_at c3 ?i ?v] =>
        destruct (add_shows (2 * m) c3 _ i v S3) as [c4 [E4 S4]]; [lia|];
        replace (Z.to_nat i) with 1%nat in S4 by lia; rewrite E4 end.
      fold (half_cell pts fr 0) in S4.
      exists c4. split; [reflexivity|]. split; [apply S4|].
      intros f F Hf HF. cbv zeta iota. rewrite (quad_value_shows _ _ _ _ _ _ S4).
      replace (2 * m)%nat with (Datatypes.S (2 * (m - 1) + 1)) at 1 by lia.
      rewrite Rsum_first.
      rewrite (Rsum_ext _ _ (fun k => g (1 + k)%nat * f (point pts (fr + 1) k) +
          (if (k =? 0)%nat then half_cell pts fr 0 * f (point pts fr 1) else 0))).
      2:{ intros k Hk. rewrite point_succ by auto. rewrite !upd_shift. simpl Nat.add.
          destruct k; simpl; ring. }
      rewrite Rsum_plus.
      rewrite (Rsum_single (2 * (m - 1) + 1) (fun k => if (k =? 0)%nat then half_cell pts fr 0 * f (point pts fr 1) else 0) 0).
      3:{ intros j Hj Hj0. destruct (Nat.eqb_spec j 0); [lia|reflexivity]. }
      2:{ lia. }
      rewrite (simpson_sum pts (fr + 1) 1 (m - 1) g (fun k => f (point pts (fr + 1) k))); [|lia|exact H].
      rewrite (pairs_integral pts (fr + 1) (m - 1) F f); auto using quadratic_pairs; try lia.
      2:{ eapply antiderivative_sub; [exact HF| |].
          - rewrite point_succ by auto. left. apply point_lt; auto; lia.
          - rewrite point_succ by auto. right. f_equal. lia. }
      rewrite !point_succ by auto. rewrite !upd_shift. simpl (0 =? 0)%nat. simpl (0 =? 1)%nat. cbv iota.
      replace (Datatypes.S (2 * (m - 1))) with (2 * (m - 1) + 1)%nat by lia. ring.
    - replace (2 * m - 1)%nat with (2 * (m - 1) + 1)%nat by lia.
      destruct (fill_np pts fr fr 0 (2 * m) (m - 1) c2) as [c [g [E [S [H HO]]]]]; auto; try lia.
      rewrite E. cbn [bind]. rewrite (dist_left_ok pts fr _ (2 * m - 2)) by lia. cbn [bind].
      match goal with |- context [wr c ?i ?v] =>
        destruct (wr_shows (2 * m) c g i v S) as [c3 [E3 S3]]; [lia|];
        replace (Z.to_nat i) with (2 * m - 1)%nat in S3 by lia; rewrite E3 end.
      cbn [bind].
      match goal with |- context [add_at c3 ?i ?v] =>
        destruct (add_shows (2 * m) c3 _ i v S3) as [c4 [E4 S4]]; [lia|];
        replace (Z.to_nat i) with (2 * m - 2)%nat in S4 by lia; rewrite E4 end.
      fold (half_cell pts fr (2 * m - 2)) in S4.
      exists c4. split; [reflexivity|]. split; [apply S4|].
      intros f F Hf HF. cbv zeta iota. rewrite (quad_value_shows _ _ _ _ _ _ S4).
      replace (2 * m)%nat with (Datatypes.S (2 * (m - 1) + 1)) at 1 by lia.
      cbn [Rsum].
      rewrite (Rsum_ext _ _ (fun k => g (0 + k)%nat * f (point pts fr k) +
          (if (k =? 2 * m - 2)%nat then half_cell pts fr (2 * m - 2) * f (point pts fr (2 * m - 2)) else 0))).
      2:{ intros k Hk. rewrite !upd_shift. simpl Nat.add.
          destruct (Nat.eqb_spec k (2 * m - 2)) as [->|].
          - destruct (Nat.eqb_spec (2 * m - 2) (2 * m - 1)); [lia|]. ring.
          - destruct (Nat.eqb_spec k (2 * m - 1)); [lia|]. ring. }
      rewrite Rsum_plus.
      rewrite (Rsum_single (2 * (m - 1) + 1) (fun k => if (k =? 2 * m - 2)%nat then half_cell pts fr (2 * m - 2) * f (point pts fr (2 * m - 2)) else 0) (2 * m - 2)).
      3:{ intros j Hj Hj0. destruct (Nat.eqb_spec j (2 * m - 2)); [lia|reflexivity]. }
      2:{ lia. }
      rewrite (simpson_sum pts fr 0 (m - 1) g (fun k => f (point pts fr k))); [|lia|exact H].
      rewrite (pairs_integral pts fr (m - 1) F f); auto using quadratic_pairs; try lia.
      2:{ eapply antiderivative_sub; [exact HF| |].
          - lra.
          - left. apply point_lt; auto; lia. }
      rewrite !upd_shift. rewrite Nat.eqb_refl.
      replace (2 * (m - 1) + 1)%nat with (2 * m - 1)%nat by lia.
      replace (2 * (m - 1))%nat with (2 * m - 2)%nat by lia.
      replace (Datatypes.S (2 * m - 2)) with (2 * m - 1)%nat by lia.
      rewrite Nat.eqb_refl.
      destruct (Nat.eqb_spec (2 * m - 1) (2 * m - 2)); [lia|]. ring. }
  destruct G as [c [E [L Q]]]. exists c. split; [exact E|]. split; [exact L|].
  split.
  - intros f F Hf HF. specialize (Q f F (affine_quadratic f Hf) HF). cbv zeta in Q.
    set (e := match ext with FRONT => 0%nat | BACK => (2 * m - 2)%nat end) in *.
    assert (He : (e <= 2 * m - 2)%nat) by (unfold e; destruct ext; lia).
    rewrite (half_integral pts fr e f F) in Q; auto; try lia.
    + lra.
    + eapply antiderivative_sub; [exact HF| |].
      * clearbody e. destruct e; [lra|]. left; apply point_lt; auto; lia.
      * destruct (Nat.eq_dec (S e) (2 * m - 1)) as [->|]; [lra|]. left; apply point_lt; auto; lia.
  - intros f F Hf HF. specialize (Q f F Hf HF). cbv zeta in Q |- *. rewrite Q.
    unfold half_cell. lra.
Qed.

Theorem mixed_odd pts fr m ext c1 c2 c :
  simpson_coefficients false pts fr (2 * m + 1) c1 = Ok c ->
  simpson_trapezoid_coefficients pts fr (2 * m + 1) ext c1 c2 = Ok c.
Proof. intros H. unfold simpson_trapezoid_coefficients. rewrite H. reflexivity. Qed.
