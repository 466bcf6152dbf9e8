(** The recursion of the interface derivatives computes the relation (C68). *)
From Verif Require Import IfdSpec IfdAnalysis OnionProofs.
From Coq Require Import ZifyBool.
Open Scope R_scope.

(** ** Positions *)
Definition pos (p : side) (k : nat) : nat := match sd_ext p with FRONT => k | BACK => (length (sd_x p) - 1 - k)%nat end.
Definition wt (p : side) (w : list R) (k : nat) : R := nth (pos p k) w 0.
Lemma pos_lt p k : (k < length (sd_x p))%nat -> (pos p k < length (sd_x p))%nat.
Proof. unfold pos. destruct (sd_ext p); lia. Qed.
Lemma pos_inj p i j : (i < length (sd_x p))%nat -> (j < length (sd_x p))%nat -> pos p i = pos p j -> i = j.
Proof. unfold pos. destruct (sd_ext p); lia. Qed.
Lemma pos_Z p k : (k < length (sd_x p))%nat -> (interface_idx p + Z.of_nat k * idx_step p = Z.of_nat (pos p k))%Z.
Proof. intros H. unfold interface_idx, idx_step, pos, sd_n. destruct (sd_ext p); lia. Qed.
Lemma dist_pos p k : dist p k = Rabs (nth (pos p k) (sd_x p) 0 - nth (pos p 0) (sd_x p) 0).
Proof. unfold dist, point_away, pos. destruct (sd_ext p); reflexivity. Qed.
Lemma replace_nth_nth {A} (l : list A) i j x (d : A) : (i < length l)%nat -> nth j (replace_nth l i x) d = if (j =? i)%nat then x else nth j l d.
Proof.
  revert i j. induction l as [|a l IH]; intros [|i] [|j] H; simpl in *; try lia; auto.
  rewrite IH by lia. reflexivity.
Qed.
Lemma add_at_pos p w k v : (k < length (sd_x p))%nat -> length w = length (sd_x p) -> exists w',
  add_at w (interface_idx p + Z.of_nat k * idx_step p) v = Ok w' /\ length w' = length w /\
  forall j, (j < length (sd_x p))%nat -> wt p w' j = wt p w j + if (j =? k)%nat then v else 0.
Proof.
  intros Hk L. pose proof (pos_lt p k Hk). unfold add_at. rewrite pos_Z by auto.
  rewrite (rd_nthd w 0 (pos p k)) by (auto; lia). cbn [bind]. rewrite wr_ok by lia. rewrite Nat2Z.id.
  eexists. split; [reflexivity|]. split; [apply replace_nth_length|]. intros j Hj. unfold wt.
  rewrite replace_nth_nth by lia.
  destruct (Nat.eqb_spec (pos p j) (pos p k)) as [E|E].
  - apply pos_inj in E; auto. subst j. rewrite Nat.eqb_refl. reflexivity.
  - destruct (Nat.eqb_spec j k); [subst; contradiction|lra].
Qed.
Lemma wr_pos p w k v : (k < length (sd_x p))%nat -> length w = length (sd_x p) -> exists w',
  wr w (interface_idx p + Z.of_nat k * idx_step p) v = Ok w' /\ length w' = length w /\
  forall j, (j < length (sd_x p))%nat -> wt p w' j = if (j =? k)%nat then v else wt p w j.
Proof.
  intros Hk L. pose proof (pos_lt p k Hk). rewrite pos_Z by auto. rewrite wr_ok by lia. rewrite Nat2Z.id.
  eexists. split; [reflexivity|]. split; [apply replace_nth_length|]. intros j Hj. unfold wt.
  rewrite replace_nth_nth by lia.
  destruct (Nat.eqb_spec (pos p j) (pos p k)) as [E|E].
  - apply pos_inj in E; auto. subst j. rewrite Nat.eqb_refl. reflexivity.
  - destruct (Nat.eqb_spec j k); [subst; contradiction|reflexivity].
Qed.
Lemma combine_wt p d c v1 v0 k : length v1 = length (sd_x p) -> length v0 = length (sd_x p) -> (k < length (sd_x p))%nat ->
  wt p (combine_weights d c v1 v0) k = 1 / d * (wt p v1 k - c * wt p v0 k).
Proof.
  intros L1 L0 H. pose proof (pos_lt p k H). unfold wt, combine_weights.
  transitivity ((fun ab : R * R => 1 / d * (fst ab - c * snd ab)) (nth (pos p k) (combine v1 v0) (0, 0))).
  - rewrite <- (map_nth (fun ab : R * R => 1 / d * (fst ab - c * snd ab))). apply nth_indep. rewrite map_length, combine_length. lia.
  - rewrite combine_nth by lia. reflexivity.
Qed.
Lemma combine_len d c v1 v0 n : length v1 = n -> length v0 = n -> length (combine_weights d c v1 v0) = n.
Proof. intros A B. unfold combine_weights. rewrite map_length, combine_length. lia. Qed.
Lemma scale_wt p f v k : wt p (scale_weights f v) k = f * wt p v k.
Proof.
  unfold wt, scale_weights. destruct (Nat.ltb_spec (pos p k) (length v)).
  - rewrite <- (map_nth (fun a => f * a)). apply nth_indep. rewrite map_length. auto.
  - rewrite !nth_overflow by (rewrite ?map_length; auto). ring.
Qed.

(** ** Lengths of the cells *)
Lemma lengths_inner p1 p2 (on1 : bool) k : let p := if on1 then p1 else p2 in ordered p ->
  (1 <= k)%nat -> (k + 1 < length (sd_x p))%nat ->
  get_cell_lengths p1 p2 on1 (interface_idx p + Z.of_nat k * idx_step p) =
    let c := dist p k - dist p (k - 1) in let f := dist p (k + 1) - dist p k in Ok (if on1 then (f, c) else (c, f)).
Proof.
  intros p O H1 H2. unfold get_cell_lengths. fold p. cbv zeta.
  rewrite pos_Z by lia.
  assert (A : (Z.of_nat (pos p k) =? 0)%Z && negb (is_front p) = false).
  { unfold pos, is_front. destruct (sd_ext p); simpl; lia. }
  assert (B : (Z.of_nat (pos p k) =? sd_n p - 1)%Z && is_front p = false).
  { unfold pos, is_front, sd_n. destruct (sd_ext p); simpl; lia. }
  rewrite A, B. cbn [negb check bind].
  assert (C : (Z.of_nat (pos p k) =? interface_idx p)%Z = false).
  { unfold pos, interface_idx, sd_n. destruct (sd_ext p); lia. }
  rewrite C.
  assert (M1 := dist_lt p (k - 1) k O ltac:(lia)). assert (M2 := dist_lt p k (k + 1) O ltac:(lia)).
  assert (SO : (if on1 then negb (is_front p1) else is_front p2) = if on1 then negb (is_front p) else is_front p) by (unfold p; destruct on1; reflexivity).
  rewrite SO. clear SO.
  destruct (sd_ext p) eqn:E.
  - rewrite !dist_front in * by (auto; lia). unfold pos. rewrite E.
    rewrite (rd_nthd _ 0 (k - 1)), (rd_nthd _ 0 k), (rd_nthd _ 0 (k + 1)) by lia. cbn [bind].
    unfold is_front. rewrite E.
    rewrite (Rabs_pos_eq (nth k (sd_x p) 0 - nth (k - 1) (sd_x p) 0)) by lra.
    rewrite (Rabs_pos_eq (nth (k + 1) (sd_x p) 0 - nth k (sd_x p) 0)) by lra.
    destruct on1; cbn [negb bind fst snd].
    + destruct (Req_EM_T _ 0) as [Q|Q]; [lra|]. destruct (Req_EM_T _ 0) as [Q2|Q2]; [lra|]. f_equal. f_equal; ring.
    + destruct (Req_EM_T _ 0) as [Q|Q]; [lra|]. destruct (Req_EM_T _ 0) as [Q2|Q2]; [lra|]. f_equal. f_equal; ring.
  - rewrite !dist_back in * by (auto; lia). unfold pos. rewrite E. set (n := length (sd_x p)) in *. assert (Hn : n = length (sd_x p)) by reflexivity.
    rewrite (rd_nthd _ 0 (n - 1 - (k + 1))), (rd_nthd _ 0 (n - 1 - k)), (rd_nthd _ 0 (n - 1 - (k - 1))) by lia. cbn [bind].
    unfold is_front. rewrite E.
    rewrite (Rabs_pos_eq (nth (n - 1 - (k - 1)) (sd_x p) 0 - nth (n - 1 - k) (sd_x p) 0)) by lra.
    rewrite (Rabs_pos_eq (nth (n - 1 - k) (sd_x p) 0 - nth (n - 1 - (k + 1)) (sd_x p) 0)) by lra.
    destruct on1; cbn [negb bind fst snd].
    + destruct (Req_EM_T _ 0) as [Q|Q]; [lra|]. destruct (Req_EM_T _ 0) as [Q2|Q2]; [lra|]. f_equal. f_equal; ring.
    + destruct (Req_EM_T _ 0) as [Q|Q]; [lra|]. destruct (Req_EM_T _ 0) as [Q2|Q2]; [lra|]. f_equal. f_equal; ring.
Qed.
Lemma read_first p : ordered p -> (2 <= length (sd_x p))%nat ->
  exists a b, rd (sd_x p) (interface_idx p + idx_step p) = Ok a /\ rd (sd_x p) (interface_idx p) = Ok b /\ Rabs (a - b) = dist p 1 /\ 0 < dist p 1.
Proof.
  intros O H. pose proof (pos_Z p 0 ltac:(lia)) as P0. pose proof (pos_Z p 1 ltac:(lia)) as P1.
  pose proof (pos_lt p 0 ltac:(lia)). pose proof (pos_lt p 1 ltac:(lia)).
  exists (nth (pos p 1) (sd_x p) 0), (nth (pos p 0) (sd_x p) 0).
  rewrite (rd_nthd _ 0 (pos p 1)), (rd_nthd _ 0 (pos p 0)) by lia. repeat split.
  - symmetry. apply dist_pos.
  - pose proof (dist_lt p 0 1 O ltac:(lia)). rewrite dist_0 in H2. exact H2.
Qed.
Lemma lengths_interface p1 p2 (on1 : bool) : ordered p1 -> ordered p2 -> (2 <= length (sd_x p1))%nat -> (2 <= length (sd_x p2))%nat ->
  get_cell_lengths p1 p2 on1 (interface_idx (if on1 then p1 else p2)) = Ok (if on1 then (dist p2 1, dist p1 1) else (dist p1 1, dist p2 1)).
Proof.
  intros O1 O2 H1 H2. unfold get_cell_lengths.
  destruct (read_first p1 O1 H1) as (a1 & b1 & A1 & B1 & E1 & P1). destruct (read_first p2 O2 H2) as (a2 & b2 & A2 & B2 & E2 & P2).
  destruct on1.
  - assert (A : (interface_idx p1 =? 0)%Z && negb (is_front p1) = false).
    { unfold interface_idx, is_front, sd_n. destruct (sd_ext p1); cbn [negb]; rewrite ?andb_true_r, ?andb_false_r; try reflexivity; lia. }
    assert (B : (interface_idx p1 =? sd_n p1 - 1)%Z && is_front p1 = false).
    { unfold interface_idx, is_front, sd_n. destruct (sd_ext p1); cbn [negb]; rewrite ?andb_true_r, ?andb_false_r; try reflexivity; lia. }
    rewrite A, B, Z.eqb_refl, A1, A2, B1, B2. cbn [negb check bind fst snd]. rewrite E1, E2.
    destruct (Req_EM_T _ 0); [lra|]. destruct (Req_EM_T _ 0); [lra|]. reflexivity.
  - assert (A : (interface_idx p2 =? 0)%Z && negb (is_front p2) = false).
    { unfold interface_idx, is_front, sd_n. destruct (sd_ext p2); cbn [negb]; rewrite ?andb_true_r, ?andb_false_r; try reflexivity; lia. }
    assert (B : (interface_idx p2 =? sd_n p2 - 1)%Z && is_front p2 = false).
    { unfold interface_idx, is_front, sd_n. destruct (sd_ext p2); cbn [negb]; rewrite ?andb_true_r, ?andb_false_r; try reflexivity; lia. }
    rewrite A, B, Z.eqb_refl, A1, A2, B1, B2. cbn [negb check bind fst snd]. rewrite E1, E2.
    destruct (Req_EM_T _ 0); [lra|]. destruct (Req_EM_T _ 0); [lra|]. reflexivity.
Qed.

(** ** Sums of weights *)
Definition wsum (p : side) (w : list R) (F : nat -> R) : R := Rsum (length (sd_x p)) (fun k => wt p w k * F k).
Lemma wsum_add p w w' k v F : (k < length (sd_x p))%nat ->
  (forall j, (j < length (sd_x p))%nat -> wt p w' j = wt p w j + if (j =? k)%nat then v else 0) -> wsum p w' F = wsum p w F + v * F k.
Proof.
  intros Hk H. unfold wsum. rewrite (Rsum_ext _ _ (fun j => wt p w j * F j + (if (j =? k)%nat then v * F j else 0))).
  - rewrite Rsum_plus. f_equal. rewrite (Rsum_single _ _ k).
    + rewrite Nat.eqb_refl. reflexivity.
    + auto.
    + intros i Hi N. destruct (Nat.eqb_spec i k); [contradiction|reflexivity].
  - intros i Hi. rewrite H by auto. destruct (i =? k)%nat; ring.
Qed.
Lemma wsum_combine p d c v1 v0 F : length v1 = length (sd_x p) -> length v0 = length (sd_x p) ->
  wsum p (combine_weights d c v1 v0) F = 1 / d * (wsum p v1 F - c * wsum p v0 F).
Proof.
  intros L1 L0. unfold wsum. rewrite <- (Rsum_scal _ c), <- Rsum_minus, <- Rsum_scal. apply Rsum_ext. intros i Hi.
  rewrite combine_wt by auto. ring.
Qed.
Lemma wsum_scale p f v F : wsum p (scale_weights f v) F = f * wsum p v F.
Proof. unfold wsum. rewrite <- Rsum_scal. apply Rsum_ext. intros i Hi. rewrite scale_wt. ring. Qed.

Section Pair.
Variables p1 p2 : side.
Hypothesis O1 : ordered p1.
Hypothesis O2 : ordered p2.
Let n1 := length (sd_x p1).
Let n2 := length (sd_x p2).

Record good (s : slot) : Prop := { g_1 : length (w1 s) = n1; g_2 : length (w2 s) = n2; g_0 : wt p1 (w1 s) 0 = wt p2 (w2 s) 0 }.
Definition E (s : slot) (FL FR : nat -> R) : R := wsum p1 (w1 s) FL + wsum p2 (w2 s) FR - wt p2 (w2 s) 0 * FR 0%nat.
(** relation of a slot: derivative at the points [j1] of patch 1 and [j2] of patch 2 *)
Definition rel (s : slot) (j1 j2 : nat) : Prop := forall FL FR YL YR, consistent p1 p2 FL FR YL YR ->
  YR 0%nat = E s FL FR + s1 s * YL j1 + s2 s * YR j2.

Definition pp (on1 : bool) : side := if on1 then p1 else p2.
Definition sg (on1 : bool) : R := if on1 then -1 else 1.
Lemma pp_ordered on1 : ordered (pp on1).
Proof. destruct on1; assumption. Qed.
(** relation, seen from one patch; [jo]: point of the other patch *)
Definition relo (on1 : bool) (s : slot) (j jo : nat) : Prop := if on1 then rel s j jo else rel s jo j.
Definition F_ (on1 : bool) (FL FR : nat -> R) : nat -> R := if on1 then FL else FR.
Lemma relo_iff on1 s j jo : relo on1 s j jo <-> forall FL FR YL YR, consistent p1 p2 FL FR YL YR ->
  YR 0%nat = E s FL FR + own on1 s * F_ on1 YL YR j + other on1 s * F_ (negb on1) YL YR jo.
Proof.
  unfold relo, rel, own, other, F_. destruct on1; cbn [negb]; split; intros H FL FR YL YR C; specialize (H FL FR YL YR C); lra.
Qed.
Lemma side_of on1 FL FR YL YR : consistent p1 p2 FL FR YL YR -> side_eqs (pp on1) (sg on1) (F_ on1 FL FR) (F_ on1 YL YR).
Proof. intros [_ _ _ A B]. destruct on1; assumption. Qed.
Lemma zero_of on1 FL FR YL YR : consistent p1 p2 FL FR YL YR -> F_ on1 YL YR 0%nat = YR 0%nat /\ F_ on1 FL FR 0%nat = FR 0%nat.
Proof. intros [A B _ _ _]. destruct on1; cbn [F_]; auto. Qed.

(** ** Elimination of one unknown *)
Lemma eliminate (E0 E1 o0 o1 q0 q1 YO Ym Yn Yp Y0 G ka ph : R) : q0 <> 0 -> 1 - ka * q1 / q0 <> 0 ->
  Y0 = E0 + q0 * Ym + o0 * YO -> Y0 = E1 + q1 * Yn + o1 * YO -> Yn = G + ka * Ym + ph * Yp ->
  let r := ka * q1 / q0 in let den := 1 - r in
  Y0 = (1 / den * (E1 - r * E0) + 1 / den * q1 * G) + ph * q1 / den * Yp + (o1 - r * o0) / den * YO.
Proof.
  intros H0 HD R0 R1 RN r den.
  assert (Ym = (Y0 - E0 - o0 * YO) / q0) by (rewrite R0 at 1; field; auto).
  assert (Hr : r * q0 = ka * q1) by (unfold r; field; auto).
  assert (D : den * Y0 = (E1 - r * E0) + q1 * G + ph * q1 * Yp + (o1 - r * o0) * YO).
  { assert (r * (Y0 - E0 - o0 * YO) = q1 * ka * Ym).
    { replace (Y0 - E0 - o0 * YO) with (q0 * Ym) by lra. replace (q1 * ka * Ym) with (ka * q1 * Ym) by ring. rewrite <- Hr. ring. }
    unfold den. rewrite RN in R1.
    replace ((1 - r) * Y0) with (Y0 - r * (Y0 - E0 - o0 * YO) - r * (E0 + o0 * YO)) by ring. rewrite H1. rewrite R1. ring. }
  assert (den <> 0) by exact HD.
  replace Y0 with (1 / den * (den * Y0)) by (field; auto). rewrite D. field. auto.
Qed.

(** weights added by one step: three (or four) additions on one patch *)
Definition v_of (on1 : bool) (s : slot) : list R := if on1 then w1 s else w2 s.
Lemma E_side on1 s FL FR YL YR : consistent p1 p2 FL FR YL YR -> good s ->
  E s FL FR = wsum (pp on1) (v_of on1 s) (F_ on1 FL FR) + (wsum (pp (negb on1)) (v_of (negb on1) s) (F_ (negb on1) FL FR) - wt (pp on1) (v_of on1 s) 0 * FR 0%nat).
Proof.
  intros C [_ _ G]. unfold E, v_of, pp, F_. destruct on1; cbn [negb]; rewrite ?G; ring.
Qed.

(** magnitudes: u1 > u0 / 2 > 0 is preserved by u2 = u1 - e u0 *)
Lemma halving u0 u1 e : 0 < u0 -> u0 / 2 < u1 -> 0 <= e < 1 / 4 -> 0 < u1 /\ u1 / 2 < u1 - e * u0.
Proof. intros A B C. assert (e * u0 <= e * (2 * u1)) by (apply Rmult_le_compat_l; lra). split; [lra|]. nra. Qed.

(** [o], [lam]: the coefficient of the other patch is o v / u with v / u < 1 / lam *)
Record inv (on1 : bool) (o lam : R) (n jo : nat) (t0 t1 : slot) : Prop := {
  i_g0 : good t0; i_g1 : good t1;
  i_r0 : relo on1 t0 (n - 1) jo; i_r1 : relo on1 t1 n jo;
  i_own : 0 < Rabs (own on1 t0) < (1 / 2) ^ (n - 1);
  i_mag : exists u0 u1 v0 v1 ps, -1 / 2 < ps < 0 /\ own on1 t1 = ps * u0 / u1 * own on1 t0 /\
    other on1 t0 = o * v0 / u0 /\ other on1 t1 = o * v1 / u1 /\
    0 < u0 /\ u0 / 2 < u1 /\ 0 < v0 /\ v0 / 2 < v1 /\ 0 < u0 - lam * v0 /\ (u0 - lam * v0) / 2 < u1 - lam * v1 /\
    -1 / 2 < ps * u0 / u1 < 0 }.

Lemma kap_phi c f : 0 < c -> 0 < f -> -1 / 2 < kap c f < 0 /\ -1 / 2 < phi c f < 0 /\ kap c f + phi c f = -1 / 2.
Proof.
  intros Hc Hf. assert (Q : 0 < c / (c + f)) by (apply Rdiv_lt_0_compat; lra).
  assert (Q2 : 0 < f / (c + f)) by (apply Rdiv_lt_0_compat; lra).
  assert (Q3 : c / (c + f) + f / (c + f) = 1) by (field; lra).
  assert (K : kap c f = -1 / 2 * (f / (c + f))) by (unfold kap; field; lra).
  assert (P : phi c f = -1 / 2 * (c / (c + f))) by (unfold phi; field; lra).
  rewrite K, P. split; [lra|]. split; [lra|]. nra.
Qed.
(** one elimination step, magnitudes; [ka] between the coefficient of the mesh and 0 *)
Lemma mag_step on1 o lam n jo t0 t1 ka : inv on1 o lam n jo t0 t1 -> -1 / 2 < ka < 0 ->
  let r := ka * own on1 t1 / own on1 t0 in let den := 1 - r in
  0 < r < - ka / 2 /\ own on1 t0 <> 0 /\ den <> 0 /\ 0 < Rabs (own on1 t1) < (1 / 2) ^ n /\
  exists u1 u2 v1 v2, other on1 t1 = o * v1 / u1 /\ (other on1 t1 - r * other on1 t0) / den = o * v2 / u2 /\
    0 < u1 /\ u1 / 2 < u2 /\ 0 < v1 /\ v1 / 2 < v2 /\ 0 < u1 - lam * v1 /\ (u1 - lam * v1) / 2 < u2 - lam * v2 /\ den = u2 / u1.
Proof.
  intros [_ _ _ _ OW (u0 & u1 & v0 & v1 & ps & HP & HO & HA & HB & U0 & U1 & V0 & V1 & Z0 & Z1 & RA)] HK r den.
  assert (N0 : own on1 t0 <> 0). { intros Z. rewrite Z, Rabs_R0 in OW. lra. }
  set (ra := ps * u0 / u1) in *.
  assert (R : r = ka * ra) by (unfold r; rewrite HO; field; auto).
  assert (e01 : 0 < ka * ps < 1 / 4) by nra.
  assert (u1p : 0 < u1) by lra.
  assert (Re : r = ka * ps * u0 / u1) by (rewrite R; unfold ra; field; lra).
  assert (RB : 0 < r < - ka / 2) by (rewrite R; nra).
  assert (DN : den <> 0) by (unfold den; lra).
  split; [exact RB|]. split; [exact N0|]. split; [exact DN|].
  assert (OWN1 : 0 < Rabs (own on1 t1) < (1 / 2) ^ n).
  { rewrite HO, Rabs_mult. assert (0 < Rabs ra < 1 / 2).
    { rewrite Rabs_left by lra. lra. }
    split; [nra|]. destruct n as [|n].
    - simpl. cbn [Nat.sub pow] in OW. nra.
    - replace (S n - 1)%nat with n in OW by lia. simpl. assert (0 < (1 / 2) ^ n) by (apply pow_lt; lra). nra. }
  split; [exact OWN1|].
  exists u1, (u1 - ka * ps * u0), v1, (v1 - ka * ps * v0).
  destruct (halving u0 u1 (ka * ps) U0 U1 ltac:(lra)) as [A1 A2].
  destruct (halving v0 v1 (ka * ps) V0 V1 ltac:(lra)) as [B1 B2].
  destruct (halving (u0 - lam * v0) (u1 - lam * v1) (ka * ps) Z0 Z1 ltac:(lra)) as [C1 C2].
  assert (Ed : den = (u1 - ka * ps * u0) / u1) by (unfold den; rewrite Re; field; lra).
  repeat split; auto; try lra.
  rewrite Ed, HA, HB, Re. field. repeat split; lra.
Qed.
End Pair.
