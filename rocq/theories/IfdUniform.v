(** The explicit formula for uniform patches (C69). *)
From Verif Require Import IfdSpec IfdAnalysis OnionProofs IfdProofs IfdMain IfdCase IfdLink.
From Coq Require Import ZifyBool.
Open Scope R_scope.

(** ** The sequence u *)
Lemma sqrt3 : sqrt 3 * sqrt 3 = 3.
Proof. apply sqrt_sqrt. lra. Qed.
Lemma u_rec k : u_seq (k + 2) = 4 * u_seq (k + 1) - u_seq k.
Proof.
  unfold u_seq. rewrite !pow_add, !pow_1. pose proof sqrt3 as Q.
  replace ((2 + sqrt 3) ^ 2) with (4 * (2 + sqrt 3) - 1) by (simpl; nra).
  replace ((2 - sqrt 3) ^ 2) with (4 * (2 - sqrt 3) - 1) by (simpl; nra). ring.
Qed.
Lemma u_0 : u_seq 0 = 0.
Proof. unfold u_seq. simpl. ring. Qed.
Lemma u_1 : u_seq 1 = 2 * sqrt 3.
Proof. unfold u_seq. rewrite !pow_1. ring. Qed.
Lemma u1_pos : 0 < u_seq 1.
Proof. rewrite u_1. pose proof (sqrt_lt_R0 3 ltac:(lra)). lra. Qed.
Lemma u_grow k : 0 <= u_seq k /\ 3 * u_seq k < u_seq (k + 1).
Proof.
  induction k as [|k [A B]].
  - rewrite u_0. cbn [Nat.add]. pose proof u1_pos. lra.
  - replace (S k) with (k + 1)%nat by lia. replace (k + 1 + 1)%nat with (k + 2)%nat by lia. rewrite u_rec. lra.
Qed.
Lemma u_power n : 3 ^ n * u_seq 1 <= u_seq (n + 1).
Proof.
  induction n as [|n IH].
  - simpl. lra.
  - replace (S n + 1)%nat with (n + 1 + 1)%nat by lia. destruct (u_grow (n + 1)) as [A B]. simpl. lra.
Qed.

(** ** Summation by parts *)
Lemma green (g Y : nat -> R) n : (forall k, (k < n)%nat -> g k + 4 * g (k + 1)%nat + g (k + 2)%nat = 0) ->
  Rsum n (fun k => g (k + 1)%nat * (Y k + 4 * Y (k + 1)%nat + Y (k + 2)%nat)) =
    g 1%nat * Y 0%nat - g 0%nat * Y 1%nat + g n * Y (n + 1)%nat - g (n + 1)%nat * Y n.
Proof.
  induction n as [|n IH]; intros H; [cbn [Rsum Nat.add]; ring|].
  cbn [Rsum]. rewrite IH by (intros; apply H; lia). pose proof (H n ltac:(lia)) as E.
  replace (S n) with (n + 1)%nat by lia. replace (n + 1 + 1)%nat with (n + 2)%nat by lia. nra.
Qed.
Lemma parts (g F : nat -> R) n :
  Rsum n (fun k => g (k + 1)%nat * (F (k + 2)%nat - F k)) =
    - g 1%nat * F 0%nat - g 0%nat * F 1%nat + Rsum n (fun k => (g k - g (k + 2)%nat) * F (k + 1)%nat)
    + g n * F (n + 1)%nat + g (n + 1)%nat * F n.
Proof.
  induction n as [|n IH]; [cbn [Rsum Nat.add]; ring|].
  cbn [Rsum]. rewrite IH. replace (S n) with (n + 1)%nat by lia. replace (n + 1 + 1)%nat with (n + 2)%nat by lia. ring.
Qed.

(** elimination of one uniform side of [n] cells of length [h] *)
Lemma pow_m1 k : (-1) ^ (k mod 2) = (-1) ^ k.
Proof.
  rewrite (Nat.div_mod k 2) at 2 by lia. rewrite pow_add, pow_mult. replace ((-1) ^ 2) with 1 by ring. rewrite pow1. ring.
Qed.
Lemma side_elimination n h (F Y : nat -> R) : (1 <= n)%nat -> h <> 0 ->
  (forall j, (1 <= j < n)%nat -> Y (j - 1)%nat + 4 * Y j + Y (j + 1)%nat = 3 / h * (F (j + 1)%nat - F (j - 1)%nat)) ->
  u_seq n * Y 1%nat = - u_seq (n - 1) * Y 0%nat + (-1) ^ (n - 1) * u_seq 1 * Y n
    - 3 / h * (u_seq (n - 1) * F 0%nat - u_seq n * F 1%nat
       + Rsum (n - 1) (fun k => - (-1) ^ (k + 1) * (u_seq (n - (k + 1) + 1) - u_seq (n - (k + 1) - 1)) * F (k + 1)%nat)
       + (-1) ^ (n - 1) * u_seq 1 * F n).
Proof.
  intros Hn Hh EQ. set (g := fun k => (-1) ^ k * u_seq (n - k)).
  assert (GR : forall k, (k < n - 1)%nat -> g k + 4 * g (k + 1)%nat + g (k + 2)%nat = 0).
  { intros k Hk. unfold g. pose proof (u_rec (n - (k + 2))) as U.
    replace (n - (k + 2) + 2)%nat with (n - k)%nat in U by lia. replace (n - (k + 2) + 1)%nat with (n - (k + 1))%nat in U by lia.
    rewrite U, !pow_add. simpl ((-1) ^ 1). simpl ((-1) ^ 2). ring. }
  pose proof (green g Y (n - 1) GR) as G. pose proof (parts g F (n - 1)) as P.
  replace (n - 1 + 1)%nat with n in * by lia.
  assert (G0 : g 0%nat = u_seq n) by (unfold g; rewrite Nat.sub_0_r; simpl; ring).
  assert (G1 : g 1%nat = - u_seq (n - 1)) by (unfold g; rewrite pow_1; ring).
  assert (GN : g n = 0) by (unfold g; rewrite Nat.sub_diag, u_0; ring).
  assert (GM : g (n - 1)%nat = (-1) ^ (n - 1) * u_seq 1) by (unfold g; replace (n - (n - 1))%nat with 1%nat by lia; reflexivity).
  rewrite G0, G1, GN, GM in *.
  assert (S : Rsum (n - 1) (fun k => g (k + 1)%nat * (Y k + 4 * Y (k + 1)%nat + Y (k + 2)%nat)) =
              3 / h * Rsum (n - 1) (fun k => g (k + 1)%nat * (F (k + 2)%nat - F k))).
  { rewrite <- Rsum_scal. apply Rsum_ext. intros k Hk. specialize (EQ (k + 1)%nat ltac:(lia)).
    replace (k + 1 - 1)%nat with k in EQ by lia. replace (k + 1 + 1)%nat with (k + 2)%nat in EQ by lia. rewrite EQ. ring. }
  assert (T : Rsum (n - 1) (fun k => - (-1) ^ (k + 1) * (u_seq (n - (k + 1) + 1) - u_seq (n - (k + 1) - 1)) * F (k + 1)%nat)
            = Rsum (n - 1) (fun k => (g k - g (k + 2)%nat) * F (k + 1)%nat)).
  { apply Rsum_ext. intros k Hk. unfold g. replace (n - (k + 1) + 1)%nat with (n - k)%nat by lia.
    replace (n - (k + 1) - 1)%nat with (n - (k + 2))%nat by lia. rewrite !pow_add. simpl ((-1) ^ 1). simpl ((-1) ^ 2). ring. }
  rewrite T. set (A := Rsum (n - 1) (fun k => (g k - g (k + 2)%nat) * F (k + 1)%nat)) in *.
  rewrite S, P in G. lra.
Qed.

(** ** Filling the weights of one patch *)
Lemma fill_spec p (w0 : R) (wk : nat -> R) (wn : R) n : length (sd_x p) = S n -> (1 <= n)%nat -> exists v0 v1 v2,
  wr (repeat 0 (length (sd_x p))) (interface_idx p) w0 = Ok v0 /\
  for_res (n - 1) (fun j v => wr v (interface_idx p + Z.of_nat (j + 1) * idx_step p) (wk (j + 1)%nat)) v0 = Ok v1 /\
  wr v1 (interface_idx p + Z.of_nat n * idx_step p) wn = Ok v2 /\
  length v2 = length (sd_x p) /\ wt p v2 0 = w0 /\ (forall k, (1 <= k < n)%nat -> wt p v2 k = wk k) /\ wt p v2 n = wn.
Proof.
  intros L Hn.
  destruct (wr_pos p (repeat 0 (length (sd_x p))) 0 w0 ltac:(lia) (repeat_length _ _)) as (v0 & A & LA & WA).
  rewrite repeat_length in LA. rewrite <- idx_zero in A.
  assert (LOOP : forall m, (m <= n - 1)%nat -> exists v1,
    for_res m (fun j v => wr v (interface_idx p + Z.of_nat (j + 1) * idx_step p) (wk (j + 1)%nat)) v0 = Ok v1 /\
    length v1 = length (sd_x p) /\ wt p v1 0 = w0 /\ forall k, (1 <= k <= m)%nat -> wt p v1 k = wk k).
  { induction m as [|m IH]; intros Hm.
    - exists v0. cbn [for_res]. split; [reflexivity|]. split; [auto|]. split; [|intros; lia]. rewrite WA by lia. reflexivity.
    - destruct IH as (v & B & LB & W0 & WB); [lia|]. cbn [for_res]. rewrite B. cbn [bind].
      destruct (wr_pos p v (m + 1) (wk (m + 1)%nat) ltac:(lia) LB) as (v' & C & LC & WC).
      exists v'. split; [exact C|]. split; [lia|]. split.
      + rewrite WC by lia. destruct (Nat.eqb_spec 0 (m + 1)); [lia|auto].
      + intros k Hk. rewrite WC by lia. destruct (Nat.eqb_spec k (m + 1)) as [->|N]; [reflexivity|apply WB; lia]. }
  destruct (LOOP (n - 1)%nat (le_n _)) as (v1 & B & LB & W0 & WB).
  destruct (wr_pos p v1 n wn ltac:(lia) LB) as (v2 & C & LC & WC).
  exists v0, v1, v2. split; [exact A|]. split; [exact B|]. split; [exact C|]. split; [lia|]. split; [|split].
  - rewrite WC by lia. destruct (Nat.eqb_spec 0 n); [lia|auto].
  - intros k Hk. rewrite WC by lia. destruct (Nat.eqb_spec k n); [lia|apply WB; lia].
  - rewrite WC by lia. rewrite Nat.eqb_refl. reflexivity.
Qed.
Lemma wsum_fill p v w0 wk wn n F : length (sd_x p) = S n -> (1 <= n)%nat -> wt p v 0 = w0 -> (forall k, (1 <= k < n)%nat -> wt p v k = wk k) -> wt p v n = wn ->
  wsum p v F = w0 * F 0%nat + Rsum (n - 1) (fun k => wk (k + 1)%nat * F (k + 1)%nat) + wn * F n.
Proof.
  intros L Hn A B C. unfold wsum. rewrite L. cbn [Rsum]. rewrite C.
  destruct n as [|n]; [lia|]. rewrite Rsum_first, A. replace (S n - 1)%nat with n by lia. f_equal. f_equal.
  apply Rsum_ext. intros i Hi. replace (i + 1)%nat with (S i) by lia. rewrite B by lia. reflexivity.
Qed.

(** ** The two cells at the interface and the inner cells of uniform patches *)
Lemma uniform_dist p h k : ordered p -> uniform_step p h -> (k < length (sd_x p))%nat -> dist p k = INR k * h.
Proof.
  intros O [H U] Hk. rewrite dist_pos. pose proof (pos_lt p k Hk). pose proof (pos_lt p 0 ltac:(lia)).
  rewrite (U (pos p k)), (U (pos p 0%nat)) by auto. unfold pos. destruct (sd_ext p).
  - replace (nth 0 (sd_x p) 0 + INR k * h - (nth 0 (sd_x p) 0 + INR 0 * h)) with (INR k * h) by (simpl; ring).
    apply Rabs_pos_eq. apply Rmult_le_pos; [apply pos_INR|lra].
  - rewrite Nat.sub_0_r, (minus_INR (length (sd_x p) - 1) k) by lia.
    replace (nth 0 (sd_x p) 0 + (INR (length (sd_x p) - 1) - INR k) * h - (nth 0 (sd_x p) 0 + INR (length (sd_x p) - 1) * h)) with (- (INR k * h)) by ring.
    rewrite Rabs_Ropp. apply Rabs_pos_eq. apply Rmult_le_pos; [apply pos_INR|lra].
Qed.
Lemma uniform_eqs p h sg F Y : ordered p -> uniform_step p h -> sd_greville p = false -> side_eqs p sg F Y ->
  forall j, (1 <= j < length (sd_x p) - 1)%nat -> Y (j - 1)%nat + 4 * Y j + Y (j + 1)%nat = sg * (3 / h * (F (j + 1)%nat - F (j - 1)%nat)).
Proof.
  intros O U G [C _] j Hj. assert (NC : cells p = (length (sd_x p) - 1)%nat) by (unfold cells; rewrite G; reflexivity).
  specialize (C j ltac:(lia)).
  assert (NX : nxt p j = (j + 1)%nat).
  { unfold nxt. destruct (Nat.ltb_spec (j + 1) (cells p)); lia. }
  unfold closer, further in C. rewrite NX in C. rewrite !(uniform_dist p h) in C by (auto; lia).
  rewrite plus_INR, minus_INR in C by lia. simpl (INR 1) in C.
  replace (INR j * h - (INR j - 1) * h) with h in C by ring. replace ((INR j + 1) * h - INR j * h) with h in C by ring.
  destruct U as [Hh _]. unfold gam, kap, phi in C. rewrite C.
  field. lra.
Qed.

Lemma signs n : (-1) ^ ((n + 1) mod 2) = - (-1) ^ n.
Proof. rewrite pow_m1, pow_add. simpl. ring. Qed.
Lemma signs' n : (1 <= n)%nat -> (-1) ^ n = - (-1) ^ (n - 1).
Proof. intros H. replace n with (S (n - 1)) at 1 by lia. simpl. ring. Qed.

Section Pair.
Variables p1 p2 : side.
Variables h1 h2 : R.
Hypothesis O1 : ordered p1.
Hypothesis O2 : ordered p2.
Hypothesis U1 : uniform_step p1 h1.
Hypothesis U2 : uniform_step p2 h2.
Hypothesis G1 : sd_greville p1 = false.
Hypothesis G2 : sd_greville p2 = false.
Local Notation n1 := (length (sd_x p1) - 1)%nat.
Local Notation n2 := (length (sd_x p2) - 1)%nat.
(** what the code computes: the cell lengths of the two patches are exchanged *)
Definition den (a b : R) : R := u_seq n1 * u_seq n2 + u_seq n1 * u_seq (n2 - 1) * a + u_seq (n1 - 1) * u_seq n2 * b.

Lemma uniform_shape : (2 <= length (sd_x p1))%nat /\ (2 <= length (sd_x p2))%nat.
Proof. destruct O1 as [_ A]. destruct O2 as [_ B]. unfold cells in *. rewrite G1 in A. rewrite G2 in B. lia. Qed.
Lemma uniform_weights : let l := h2 in let r := h1 in
  let a := - (1 / 2) * l / (l + r) in let b := - (1 / 2) * r / (l + r) in
  let fa := 3 * a / r / den a b in let fb := 3 * b / l / den a b in
  exists c, uniform_case p1 p2 = Ok c /\
    s1 c = (-1) ^ (n1 - 1) * (2 * sqrt 3) * b * u_seq n2 / den a b /\ s2 c = (-1) ^ (n2 - 1) * (2 * sqrt 3) * a * u_seq n1 / den a b /\
    good p1 p2 c /\ wt p2 (w2 c) 0 = fa * u_seq n1 * (u_seq n2 - u_seq (n2 - 1)) - fb * u_seq n2 * (u_seq n1 - u_seq (n1 - 1)) /\
    (forall F, wsum p1 (w1 c) F = wt p2 (w2 c) 0 * F 0%nat
       + Rsum (n1 - 1) (fun k => - (-1) ^ (k + 1) * fb * u_seq n2 * (u_seq (n1 - (k + 1) + 1) - u_seq (n1 - (k + 1) - 1)) * F (k + 1)%nat)
       + (-1) ^ (n1 - 1) * fb * u_seq n2 * (2 * sqrt 3) * F n1) /\
    (forall F, wsum p2 (w2 c) F = wt p2 (w2 c) 0 * F 0%nat
       + Rsum (n2 - 1) (fun k => (-1) ^ (k + 1) * fa * u_seq n1 * (u_seq (n2 - (k + 1) + 1) - u_seq (n2 - (k + 1) - 1)) * F (k + 1)%nat)
       - (-1) ^ (n2 - 1) * fa * u_seq n1 * (2 * sqrt 3) * F n2).
Proof.
  intros l r a b fa fb. destruct uniform_shape as [L1 L2].
  pose proof (lengths_interface p1 p2 true O1 O2 L1 L2) as LI. cbn in LI.
  rewrite !(uniform_dist p1 h1), !(uniform_dist p2 h2) in LI by (auto; lia). simpl (INR 1) in LI. rewrite !Rmult_1_l in LI.
  unfold uniform_case. rewrite LI. cbn [bind]. fold l r. fold a b. fold (den a b). fold fa fb.
  set (w0 := fa * u_seq n1 * (u_seq n2 - u_seq (n2 - 1)) - fb * u_seq n2 * (u_seq n1 - u_seq (n1 - 1))).
  destruct (fill_spec p1 w0 (fun k => (-1) ^ ((k + 1) mod 2) * fb * u_seq n2 * (u_seq (n1 - k + 1) - u_seq (n1 - k - 1)))
             ((-1) ^ ((n1 + 1) mod 2) * fb * u_seq n2 * (2 * sqrt 3)) n1 ltac:(lia) ltac:(lia)) as (x0 & x1 & x2 & A0 & A1 & A2 & LX & X0 & XK & XN).
  destruct (fill_spec p2 w0 (fun k => (-1) ^ (k mod 2) * fa * u_seq n1 * (u_seq (n2 - k + 1) - u_seq (n2 - k - 1)))
             ((-1) ^ (n2 mod 2) * fa * u_seq n1 * (2 * sqrt 3)) n2 ltac:(lia) ltac:(lia)) as (y0 & y1 & y2 & B0 & B1 & B2 & LY & Y0 & YK & YN).
  rewrite A0. cbn [bind]. rewrite B0. cbn [bind]. cbv beta zeta in A1, B1 |- *.
  rewrite B1. cbn [bind]. rewrite B2. cbn [bind]. rewrite A1. cbn [bind]. rewrite A2. cbn [bind].
  eexists. split; [reflexivity|]. cbn [s1 s2 w1 w2].
  split; [rewrite pow_m1; reflexivity|]. split; [rewrite pow_m1; reflexivity|].
  split; [split; cbn [w1 w2]; auto; congruence|]. split; [exact Y0|]. rewrite Y0. split; intros F.
  - rewrite (wsum_fill p1 x2 _ _ _ n1 F ltac:(lia) ltac:(lia) X0 XK XN). rewrite signs, (signs' n1) by lia. f_equal; [f_equal|ring].
    apply Rsum_ext. intros k Hk. rewrite signs. ring.
  - rewrite (wsum_fill p2 y2 _ _ _ n2 F ltac:(lia) ltac:(lia) Y0 YK YN). rewrite pow_m1, (signs' n2) by lia.
    rewrite (Rsum_ext (n2 - 1) _ (fun k => (-1) ^ (k + 1) * fa * u_seq n1 * (u_seq (n2 - (k + 1) + 1) - u_seq (n2 - (k + 1) - 1)) * F (k + 1)%nat)); [ring|].
    intros k Hk. rewrite pow_m1. ring.
Qed.

Lemma den_pos a b : -1 / 2 < a < 0 -> -1 / 2 < b < 0 -> a + b = -1 / 2 -> u_seq n1 * u_seq n2 / 2 < den a b.
Proof.
  intros Ha Hb Hab. destruct uniform_shape as [L1 L2]. unfold den.
  destruct (u_grow (n1 - 1)) as [A1 B1]. destruct (u_grow (n2 - 1)) as [A2 B2].
  replace (n1 - 1 + 1)%nat with n1 in B1 by lia. replace (n2 - 1 + 1)%nat with n2 in B2 by lia.
  set (x := u_seq n1) in *. set (y := u_seq n2) in *. set (x' := u_seq (n1 - 1)) in *. set (y' := u_seq (n2 - 1)) in *.
  assert (0 < x) by lra. assert (0 < y) by lra.
  assert (x * y' * - a <= x * y * - a) by (apply Rmult_le_compat_r; [lra|]; apply Rmult_le_compat_l; lra).
  assert (x' * y * - b <= x * y * - b) by (apply Rmult_le_compat_r; [lra|]; apply Rmult_le_compat_r; lra).
  assert (Hy : (x' + 0) * y < x * y) by (apply Rmult_lt_compat_r; lra).
  assert (x' * y * - b < x * y * - b) by (apply Rmult_lt_compat_r; lra).
  replace b with (-1 / 2 - a) in * by lra. nra.
Qed.
End Pair.

(** ** Equal steps *)
Lemma half_bound n : (1 / 2) * / 3 ^ n <= (1 / 2) ^ (n + 1).
Proof.
  rewrite pow_add, pow_1. rewrite Rmult_comm. apply Rmult_le_compat_r; [lra|].
  replace ((1 / 2) ^ n) with (/ 2 ^ n). 2: { replace (1 / 2) with (/ 2) by lra. rewrite pow_inv; lra. }
  apply Rinv_le_contravar; [apply pow_lt; lra|]. apply pow_incr. lra.
Qed.
Lemma decay u n A D : 0 < u -> u_seq n <> 0 -> 0 < u_seq 1 -> 3 ^ (n - 1) * u_seq 1 <= u_seq n -> 0 <= A <= 1 / 4 -> u_seq n * u / 2 < D ->
  u_seq 1 * A * u / D <= 1 / 2 * / 3 ^ (n - 1).
Proof.
  intros Hu Hn H1 HP HA HD. assert (P3 : 0 < 3 ^ (n - 1)) by (apply pow_lt; lra).
  assert (UN : 0 < u_seq n) by (pose proof (Rmult_lt_0_compat _ _ P3 H1); lra).
  assert (DP : 0 < D) by (pose proof (Rmult_lt_0_compat _ _ UN Hu); lra).
  apply Rmult_le_reg_r with D; auto. replace (u_seq 1 * A * u / D * D) with (u_seq 1 * A * u) by (field; lra).
  apply Rmult_le_reg_r with (3 ^ (n - 1)); auto.
  replace (1 / 2 * / 3 ^ (n - 1) * D * 3 ^ (n - 1)) with (1 / 2 * D) by (field; lra).
  assert (u_seq 1 * A * u * 3 ^ (n - 1) <= u_seq n * u * A).
  { replace (u_seq 1 * A * u * 3 ^ (n - 1)) with (3 ^ (n - 1) * u_seq 1 * (A * u)) by ring. replace (u_seq n * u * A) with (u_seq n * (A * u)) by ring.
    apply Rmult_le_compat_r; [nra|lra]. }
  assert (u_seq n * u * A <= u_seq n * u * (1 / 4)) by (apply Rmult_le_compat_l; [nra|lra]). lra.
Qed.

Theorem uniform_spec p1 p2 h : ordered p1 -> ordered p2 -> uniform_step p1 h -> uniform_step p2 h ->
  sd_greville p1 = false -> sd_greville p2 = false ->
  exists c, uniform_case p1 p2 = Ok c /\ good p1 p2 c /\ rel p1 p2 c (length (sd_x p1) - 1) (length (sd_x p2) - 1) /\
    Rabs (s1 c) <= (1 / 2) ^ cells p1 /\ Rabs (s2 c) <= (1 / 2) ^ cells p2.
Proof.
  intros O1 O2 U1 U2 G1 G2. destruct (uniform_shape p1 p2 O1 O2 G1 G2) as [L1 L2].
  destruct (uniform_weights p1 p2 h h O1 O2 U1 U2 G1 G2) as (c & A & S1 & S2 & GD & W0 & X1 & X2).
  assert (Hh : 0 < h) by apply U1.
  set (n1 := (length (sd_x p1) - 1)%nat) in *. set (n2 := (length (sd_x p2) - 1)%nat) in *.
  assert (N1 : n1 = (length (sd_x p1) - 1)%nat) by reflexivity. assert (N2 : n2 = (length (sd_x p2) - 1)%nat) by reflexivity.
  replace (- (1 / 2) * h / (h + h)) with (- (1 / 4)) in * by (field; lra).
  pose proof (den_pos p1 p2 O1 O2 G1 G2 (- (1 / 4)) (- (1 / 4)) ltac:(lra) ltac:(lra) ltac:(lra)) as DP. fold n1 n2 in DP.
  assert (DE : den p1 p2 (- (1 / 4)) (- (1 / 4)) = u_seq n1 * u_seq n2 - u_seq n1 * u_seq (n2 - 1) / 4 - u_seq (n1 - 1) * u_seq n2 / 4).
  { unfold den. fold n1 n2. field. }
  set (D := den p1 p2 (- (1 / 4)) (- (1 / 4))) in *.
  pose proof u1_pos as UP. pose proof (u_power (n1 - 1)) as P1. pose proof (u_power (n2 - 1)) as P2.
  replace (n1 - 1 + 1)%nat with n1 in P1 by lia. replace (n2 - 1 + 1)%nat with n2 in P2 by lia.
  assert (V1 : 0 < u_seq n1) by (pose proof (Rmult_lt_0_compat _ _ (pow_lt 3 (n1 - 1) ltac:(lra)) UP); lra).
  assert (V2 : 0 < u_seq n2) by (pose proof (Rmult_lt_0_compat _ _ (pow_lt 3 (n2 - 1) ltac:(lra)) UP); lra).
  assert (D0 : 0 < D) by (pose proof (Rmult_lt_0_compat _ _ V1 V2); lra).
  assert (SGN : forall n, Rabs ((-1) ^ n) = 1) by (intros n; apply pow_1_abs).
  exists c. split; [exact A|]. split; [exact GD|]. split; [|split].
  - intros FL FR YL YR C. pose proof (co_interface _ _ _ _ _ _ C) as CI.
    rewrite (uniform_dist p1 h), (uniform_dist p2 h) in CI by (auto; lia). simpl (INR 1) in CI. rewrite !Rmult_1_l in CI.
    pose proof (side_elimination n2 h FR YR ltac:(lia) ltac:(lra)) as E2.
    pose proof (side_elimination n1 (- h) FL YL ltac:(lia) ltac:(lra)) as E1.
    specialize (E2 (fun j Hj => eq_trans (uniform_eqs p2 h 1 FR YR O2 U2 G2 (co_right _ _ _ _ _ _ C) j Hj) (Rmult_1_l _))).
    assert (E1' : forall j, (1 <= j < n1)%nat -> YL (j - 1)%nat + 4 * YL j + YL (j + 1)%nat = 3 / - h * (FL (j + 1)%nat - FL (j - 1)%nat)).
    { intros j Hj. rewrite (uniform_eqs p1 h (-1) FL YL O1 U1 G1 (co_left _ _ _ _ _ _ C) j Hj). field. lra. }
    specialize (E1 E1'). clear E1'.
    unfold E. rewrite X1, X2, W0, S1, S2. rewrite u_1 in E1, E2. fold n1 n2. clear X1 X2 S1 S2 W0.
    rewrite (co_y _ _ _ _ _ _ C), (co_f _ _ _ _ _ _ C) in *.
    set (SL := Rsum (n1 - 1) (fun k => - (-1) ^ (k + 1) * (u_seq (n1 - (k + 1) + 1) - u_seq (n1 - (k + 1) - 1)) * FL (k + 1)%nat)) in *.
    set (SR := Rsum (n2 - 1) (fun k => - (-1) ^ (k + 1) * (u_seq (n2 - (k + 1) + 1) - u_seq (n2 - (k + 1) - 1)) * FR (k + 1)%nat)) in *.
    set (fb := 3 * - (1 / 4) / h / D).
    rewrite (Rsum_ext (n1 - 1) _ (fun k => fb * u_seq n2 * (- (-1) ^ (k + 1) * (u_seq (n1 - (k + 1) + 1) - u_seq (n1 - (k + 1) - 1)) * FL (k + 1)%nat))) by (intros; ring).
    rewrite (Rsum_ext (n2 - 1) _ (fun k => - fb * u_seq n1 * (- (-1) ^ (k + 1) * (u_seq (n2 - (k + 1) + 1) - u_seq (n2 - (k + 1) - 1)) * FR (k + 1)%nat))) by (intros; ring).
    rewrite !Rsum_scal. fold SL SR.
    unfold gam, kap, phi in CI.
    replace (3 / 2 / (h + h) * (h / h * FR 1%nat + (h / h - h / h) * FR 0%nat - h / h * FL 1%nat) + - (1 / 2) * h / (h + h) * YL 1%nat + - (1 / 2) * h / (h + h) * YR 1%nat)
      with (3 / (4 * h) * (FR 1%nat - FL 1%nat) - YL 1%nat / 4 - YR 1%nat / 4) in CI by (field; lra).
    set (x := u_seq n1) in *. set (y := u_seq n2) in *. set (x' := u_seq (n1 - 1)) in *. set (y' := u_seq (n2 - 1)) in *.
    set (g1 := (-1) ^ (n1 - 1)) in *. set (g2 := (-1) ^ (n2 - 1)) in *.
    assert (T1 : YL 1%nat = (x * YL 1%nat) / x) by (field; lra). assert (T2 : YR 1%nat = (y * YR 1%nat) / y) by (field; lra).
    rewrite E1 in T1. rewrite E2 in T2.
    assert (Q : D * YR 0%nat = x * y * YR 0%nat - x * y' * YR 0%nat / 4 - x' * y * YR 0%nat / 4) by (rewrite DE; field).
    assert (Q' : x * y * YR 0%nat = x * y * (3 / (4 * h) * (FR 1%nat - FL 1%nat)) - y * (x * YL 1%nat) / 4 - x * (y * YR 1%nat) / 4) by (rewrite CI at 1; field; lra).
    rewrite E1, E2 in Q'. rewrite Q' in Q. 
    apply Rmult_eq_reg_l with D; [|lra]. rewrite Q. unfold fb. field. lra.
  - rewrite S1. unfold cells. rewrite G1. fold n1.
    replace ((-1) ^ (n1 - 1) * (2 * sqrt 3) * - (1 / 4) * u_seq n2 / D) with ((-1) ^ (n1 - 1) * - (u_seq 1 * (1 / 4) * u_seq n2 / D)) by (rewrite u_1; field; lra).
    rewrite Rabs_mult, SGN, Rabs_Ropp, Rmult_1_l. rewrite Rabs_pos_eq.
    2: { apply Rlt_le, Rdiv_lt_0_compat; auto. apply Rmult_lt_0_compat; auto. lra. }
    eapply Rle_trans; [apply (decay (u_seq n2) n1 (1 / 4) D); auto; lra|]. pose proof (half_bound (n1 - 1)). replace (n1 - 1 + 1)%nat with n1 in H by lia. exact H.
  - rewrite S2. unfold cells. rewrite G2. fold n2.
    replace ((-1) ^ (n2 - 1) * (2 * sqrt 3) * - (1 / 4) * u_seq n1 / D) with ((-1) ^ (n2 - 1) * - (u_seq 1 * (1 / 4) * u_seq n1 / D)) by (rewrite u_1; field; lra).
    rewrite Rabs_mult, SGN, Rabs_Ropp, Rmult_1_l. rewrite Rabs_pos_eq.
    2: { apply Rlt_le, Rdiv_lt_0_compat; auto. apply Rmult_lt_0_compat; auto. lra. }
    eapply Rle_trans; [apply (decay (u_seq n1) n2 (1 / 4) D); auto; lra|]. pose proof (half_bound (n2 - 1)). replace (n2 - 1 + 1)%nat with n2 in H by lia. exact H.
Qed.
