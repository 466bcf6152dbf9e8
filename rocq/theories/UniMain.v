(** The stencil on a uniform grid in binary64. *)
From Coq Require Import Lia Lra ZArith Reals List.
From Flocq Require Import Core IEEE754.BinarySingleNaN.
From Verif Require Import UniSpec FltBase EdgeFloat.
Import ListNotations.
Open Scope R_scope.

Lemma is_knot_eq o h i y : is_knot o h i y <-> y = rnd (num o + rnd (IZR i * num h)).
Proof. reflexivity. Qed.
Lemma rnd_0 : rnd 0 = 0.
Proof. apply round_0. apply valid_rnd_N. Qed.
Lemma rnd_int z k : (Z.abs z < 2 ^ 53)%Z -> (-1074 <= k)%Z -> rnd (IZR z * bpow radix2 k) = IZR z * bpow radix2 k.
Proof. intros Hz Hk. apply round_generic; [apply valid_rnd_N|]. now apply fmt_int. Qed.
Lemma rnd_idem z : rnd (rnd z) = rnd z.
Proof. apply round_generic; [apply valid_rnd_N|]. apply generic_format_round; [exact valid_flt|apply valid_rnd_N]. Qed.
(** adding a positive number of the format to a number of the format: at most twice as much is added *)
Lemma rnd_sum_twice x y : 0 <= y -> rnd (num x + y) <= num x + 2 * y.
Proof.
  intros Y. pose proof (@round_N_pt radix2 (FLT_exp (-1074) 53) valid_flt (fun x => negb (Z.even x)) (num x + y)) as [_ N].
  specialize (N (num x) (num_fmt x)). replace (num x - (num x + y)) with (- y) in N by ring. rewrite Rabs_Ropp, (Rabs_right y) in N by lra.
  apply Rabs_le_inv in N. lra.
Qed.
Lemma quarter z : (Z.abs z < 2 ^ 53)%Z -> rnd (IZR z / 4) = IZR z / 4.
Proof. intros H. replace (IZR z / 4) with (IZR z * bpow radix2 (-2)) by (simpl; lra). apply rnd_int; [exact H|lia]. Qed.

Section Grid.
  Variables (o h : F64).
  Hypothesis G : uniform_grid o h.
  Notation O := (num o). Notation H := (num h).
  Notation kn i := (rnd (O + rnd (IZR i * H))).

  Lemma eps_val : bpow radix2 (-53) = / 9007199254740992. Proof. reflexivity. Qed.
  Lemma h_pos : 0 < H. Proof. destruct G as (_ & _ & _ & L & _). pose proof (bpow_gt_0 radix2 (-900)). lra. Qed.
  Lemma tiny : bpow radix2 (-1075) <= H / 1024.
  Proof.
    destruct G as (_ & _ & _ & L & _). apply Rle_trans with (bpow radix2 (-900) * / 1024); [|lra].
    replace (/ 1024) with (bpow radix2 (-10)) by reflexivity. rewrite <- bpow_plus. apply bpow_le. lia.
  Qed.
  (** the rounded products *)
  Lemma prod_err i : (0 <= i <= 2 ^ 40)%Z -> Rabs (rnd (IZR i * H) - IZR i * H) <= H / 512.
  Proof.
    intros Hi. eapply Rle_trans; [apply rnd_any|]. pose proof h_pos as P. pose proof tiny as T.
    assert (I1 : 0 <= IZR i) by (apply IZR_le; lia). assert (I2 : IZR i <= 1099511627776) by (apply IZR_le; lia).
    rewrite (Rabs_right (IZR i * H)) by nra. rewrite eps_val. nra.
  Qed.
  Lemma prod_range i : (0 <= i <= 2 ^ 40)%Z -> IZR i * H - H / 512 <= rnd (IZR i * H) <= IZR i * H + H / 512.
  Proof. intros Hi. pose proof (Rabs_le_inv _ _ (prod_err i Hi)). lra. Qed.
  Lemma prod_pos i : (0 <= i)%Z -> 0 <= rnd (IZR i * H).
  Proof. intros Hi. rewrite <- rnd_0. apply rnd_le. apply IZR_le in Hi. pose proof h_pos. nra. Qed.
  Lemma prod_small i : (0 <= i <= 2 ^ 40)%Z -> rnd (IZR i * H) <= bpow radix2 950.
  Proof.
    intros Hi. apply Rle_trans with (Rabs (rnd (IZR i * H))); [apply Rle_abs|]. apply rnd_bound; [lia|].
    assert (I1 : 0 <= IZR i) by (apply IZR_le; lia). assert (I2 : IZR i <= bpow radix2 40) by (rewrite <- pow2_bpow by lia; apply IZR_le; lia).
    pose proof h_pos as P. rewrite Rabs_right by nra. destruct G as (_ & _ & _ & _ & U). apply Rle_trans with (bpow radix2 40 * bpow radix2 900).
    - apply Rmult_le_compat; lra.
    - rewrite <- bpow_plus. apply bpow_le. lia.
  Qed.
  Lemma knot_mono i j : (i <= j)%Z -> kn i <= kn j.
  Proof. intros L. apply rnd_le, Rplus_le_compat_l, rnd_le. apply IZR_le in L. pose proof h_pos. nra. Qed.
  Lemma knot_0 : kn 0 = O.
  Proof. rewrite Rmult_0_l, rnd_0, Rplus_0_r. apply rnd_num. Qed.
  Lemma big : bpow radix2 900 + bpow radix2 950 <= bpow radix2 951.
  Proof.
    assert (bpow radix2 900 <= bpow radix2 950) by (apply bpow_le; lia).
    replace (bpow radix2 951) with (bpow radix2 1 * bpow radix2 950) by (rewrite <- bpow_plus; reflexivity). change (bpow radix2 1) with 2. lra.
  Qed.
  Lemma knot_ok i : (0 <= i <= 2 ^ 40)%Z -> num (knot_f64 o h i) = kn i /\ is_num (knot_f64 o h i).
  Proof.
    intros Hi. destruct G as (NO & NH & BO & _). unfold knot_f64. destruct (b64_ok i) as [B1 B2]; [lia|].
    pose proof (prod_small i Hi) as PS. pose proof (prod_pos i) as PP. specialize (PP ltac:(lia)). pose proof big as BG.
    assert (P2 : bpow radix2 951 <= bpow radix2 1000) by (apply bpow_le; lia).
    destruct (mul_ok (b64 i) h) as [M1 M2]; [exact B2|exact NH| |].
    - change (num (b64 i)) with (B2R (b64 i)). rewrite B1. assert (I1 : 0 <= IZR i) by (apply IZR_le; lia). pose proof h_pos as P.
      assert (J : Rabs (IZR i * H) <= bpow radix2 40 * bpow radix2 900); [|rewrite <- bpow_plus in J; eapply Rle_trans; [exact J|apply bpow_le; lia]].
      rewrite Rabs_right by nra. destruct G as (_ & _ & _ & _ & U). apply Rmult_le_compat; try lra.
      rewrite <- pow2_bpow by lia. apply IZR_le. lia.
    - change (num (b64 i)) with (B2R (b64 i)) in M1. rewrite B1 in M1.
      destruct (add_ok o (f_mul (b64 i) h)) as [A1 A2]; [exact NO|exact M2| |].
      + rewrite M1. eapply Rle_trans; [apply Rabs_triang|]. rewrite (Rabs_right (rnd _)) by lra. lra.
      + rewrite M1 in A1. auto.
  Qed.

  Variable n : Z.
  Hypothesis N : (1 <= n <= max_cells)%Z.
  Variable x : F64.
  Hypothesis X : on_grid o h n x.

  Lemma x_range : is_num x /\ O <= num x <= kn n.
  Proof.
    destruct X as (X1 & a & b & A & B & C). apply (proj1 (is_knot_eq _ _ _ _)) in A. apply (proj1 (is_knot_eq _ _ _ _)) in B. rewrite knot_0 in A. subst a b. auto.
  Qed.
  Notation D := (rnd (num x - O)).
  Notation q := (D / H).
  Notation Q := (rnd q).
  Lemma d_pos : 0 <= D.
  Proof. destruct x_range as (_ & L & _). rewrite <- rnd_0. apply rnd_le. lra. Qed.
  Lemma d_bound : D <= (4 * IZR n) * H.
  Proof.
    destruct x_range as (X1 & L & U). unfold max_cells in N. pose proof (prod_range n) as PR. specialize (PR ltac:(lia)).
    pose proof (prod_pos n) as PP. specialize (PP ltac:(lia)). pose proof h_pos as P. pose proof tiny as T.
    pose proof (rnd_sum_twice o (rnd (IZR n * H)) PP) as S1.
    pose proof (Rabs_le_inv _ _ (rnd_any (num x - O))) as [_ E]. rewrite (Rabs_right (num x - O)) in E by lra.
    assert (N1 : 1 <= IZR n) by (apply IZR_le; lia). rewrite eps_val in E. nra.
  Qed.
  Lemma q_range : 0 <= q <= 4 * IZR n.
  Proof.
    pose proof h_pos as P. pose proof d_pos as D1. pose proof d_bound as D2. split.
    - apply Rmult_le_pos; [exact D1|]. apply Rlt_le, Rinv_0_lt_compat, P.
    - apply Rmult_le_reg_r with H; [exact P|]. unfold Rdiv. rewrite Rmult_assoc, Rinv_l by lra. lra.
  Qed.
  Lemma qr_range : 0 <= Q <= 4 * IZR n.
  Proof.
    destruct q_range as [L U]. unfold max_cells in N. split; [rewrite <- rnd_0; now apply rnd_le|].
    replace (4 * IZR n) with (IZR (16 * n) / 4) by (rewrite mult_IZR; lra). rewrite <- (quarter (16 * n)) by lia. apply rnd_le.
    rewrite mult_IZR. lra.
  Qed.
  Lemma q_d c : c < q -> c * H < D.
  Proof. intros L. pose proof h_pos as P. apply Rmult_lt_compat_r with (r := H) in L; [|exact P]. unfold Rdiv in L. rewrite Rmult_assoc, Rinv_l in L; lra. Qed.
  Lemma d_q c : q < c -> D < c * H.
  Proof. intros L. pose proof h_pos as P. apply Rmult_lt_compat_r with (r := H) in L; [|exact P]. unfold Rdiv in L. rewrite Rmult_assoc, Rinv_l in L; lra. Qed.
  Lemma rnd_lt a b : rnd a < rnd b -> a < b.
  Proof. intros L. destruct (Rlt_or_le a b) as [K|K]; [exact K|]. apply rnd_le in K. lra. Qed.

  Lemma low k : (1 <= k <= 2 ^ 31)%Z -> IZR k - 3 / 4 < q -> kn (k - 1) <= num x.
  Proof.
    intros Hk L. apply q_d in L. pose proof (prod_range (k - 1)) as PR. specialize (PR ltac:(lia)). rewrite minus_IZR in PR.
    pose proof h_pos as P. rewrite <- (rnd_num x). apply rnd_le.
    assert (J : rnd (rnd (IZR (k - 1) * H)) < D) by (rewrite rnd_idem, minus_IZR; lra). apply rnd_lt in J. lra.
  Qed.
  Lemma up k : (0 <= k <= 2 ^ 31)%Z -> q < IZR k + 3 / 4 -> num x <= kn (k + 1).
  Proof.
    intros Hk L. apply d_q in L. pose proof (prod_range (k + 1)) as PR. specialize (PR ltac:(lia)). rewrite !plus_IZR in PR.
    pose proof h_pos as P. rewrite <- (rnd_num x). apply rnd_le.
    assert (J : D < rnd (rnd (IZR (k + 1) * H))) by (rewrite rnd_idem, plus_IZR; lra). apply rnd_lt in J. lra.
  Qed.
  (** from the rounded quotient to the quotient *)
  Lemma q_low z : (Z.abs z < 2 ^ 53)%Z -> IZR z / 4 < Q -> IZR z / 4 < q.
  Proof. intros Hz L. rewrite <- (quarter z Hz) in L. now apply rnd_lt. Qed.
  Lemma q_up z : (Z.abs z < 2 ^ 53)%Z -> Q < IZR z / 4 -> q < IZR z / 4.
  Proof. intros Hz L. rewrite <- (quarter z Hz) in L. now apply rnd_lt. Qed.

  Lemma quotient_ok : num (b64_div (f_sub x (knot_f64 o h 0)) h) = Q /\ is_num (b64_div (f_sub x (knot_f64 o h 0)) h).
  Proof.
    destruct x_range as (X1 & L & U). destruct (knot_ok 0) as [K1 K2]; [lia|]. rewrite knot_0 in K1.
    pose proof d_pos as D1. pose proof d_bound as D2. pose proof q_range as QR. pose proof h_pos as P. unfold max_cells in N.
    destruct (sub_ok x (knot_f64 o h 0)) as [S1 S2]; [exact X1|exact K2| |].
    - rewrite K1. pose proof (rnd_sum_twice o (rnd (IZR n * H)) (prod_pos n ltac:(lia))) as S1. pose proof (prod_small n ltac:(lia)) as S2.
      rewrite Rabs_right by lra. apply Rle_trans with (2 * bpow radix2 950); [lra|]. change 2 with (bpow radix2 1). rewrite <- bpow_plus. apply bpow_le. lia.
    - rewrite K1 in S1. destruct (div_ok (f_sub x (knot_f64 o h 0)) h) as [V1 V2]; [exact S2|lra| |].
      + rewrite S1, Rabs_right by lra. apply Rle_trans with (4 * IZR n); [lra|]. apply Rle_trans with (bpow radix2 60); [|apply bpow_le; lia].
        rewrite <- pow2_bpow by lia. rewrite <- mult_IZR. apply IZR_le. lia.
      + rewrite S1 in V1. auto.
  Qed.
  Lemma int_ok y k : is_num y -> num y = IZR k -> (0 <= k <= 2147483647)%Z -> f_int y = Ok k.
  Proof.
    intros Y E Hk. unfold f_int, is_num in *. rewrite Y. pose proof (Btrunc_correct 53 1024 prec64_lt_emax y) as T.
    change (B2R y) with (num y) in T. rewrite E in T. rewrite round_generic in T; [|apply valid_rnd_ZR|].
    - apply eq_IZR in T. rewrite T. replace (-2147483648 <=? k)%Z with true by (symmetry; apply Z.leb_le; lia).
      replace (k <=? 2147483647)%Z with true by (symmetry; apply Z.leb_le; lia). reflexivity.
    - replace (IZR k) with (F2R (Float radix2 k 0)) by (unfold F2R; simpl; ring). apply generic_format_FIX. eexists; reflexivity.
  Qed.
  Lemma int_trunc y : is_num y -> 0 <= num y -> (Zfloor (num y) <= 2147483647)%Z -> f_int y = Ok (Zfloor (num y)).
  Proof.
    intros Y P L. unfold f_int, is_num in *. rewrite Y. pose proof (Btrunc_correct 53 1024 prec64_lt_emax y) as T.
    change (B2R y) with (num y) in T. unfold round, F2R, scaled_mantissa, cexp, FIX_exp in T. cbn [Fnum Fexp Z.opp bpow] in T.
    rewrite !Rmult_1_r in T. apply eq_IZR in T. rewrite Ztrunc_floor in T by exact P.
    assert (0 <= Zfloor (num y))%Z by (apply Zfloor_lub; exact P).
    rewrite T. replace (-2147483648 <=? Zfloor (num y))%Z with true by (symmetry; apply Z.leb_le; lia).
    replace (Zfloor (num y) <=? 2147483647)%Z with true by (symmetry; apply Z.leb_le; lia). reflexivity.
  Qed.

  Lemma closest_odd deg : Z.even deg = false -> exists k, closest_uniform deg o h x = Ok k /\ (0 <= k <= 2 ^ 30)%Z /\ IZR k <= Q < IZR k + 1.
  Proof.
    intros E. unfold closest_uniform. rewrite E. destruct quotient_ok as [Q1 Q2]. pose proof qr_range as R. unfold max_cells in N.
    set (y := b64_div _ _) in *. assert (F : (0 <= Zfloor Q <= 2 ^ 30)%Z).
    { split; [apply Zfloor_lub; lra|]. apply le_IZR. eapply Rle_trans; [apply Zfloor_lb|]. eapply Rle_trans; [apply R|]. rewrite <- mult_IZR. apply IZR_le. lia. }
    exists (Zfloor Q). split; [|split; [exact F|split; [apply Zfloor_lb|apply Zfloor_ub]]].
    rewrite (int_trunc y Q2); rewrite Q1; [reflexivity|lra|lia].
  Qed.
  Lemma closest_even deg : Z.even deg = true -> exists k, closest_uniform deg o h x = Ok k /\ (0 <= k <= 2 ^ 30)%Z /\ IZR k - / 2 <= Q <= IZR k + / 2.
  Proof.
    intros E. unfold closest_uniform. rewrite E. destruct quotient_ok as [Q1 Q2]. pose proof qr_range as R. unfold max_cells in N.
    set (y := b64_div _ _) in *. destruct (Bnearbyint_correct 53 1024 prec64_lt_emax mode_NA y) as (B1 & B2 & _).
    change (B2R y) with (num y) in B1. rewrite Q1 in B1. unfold round, F2R, scaled_mantissa, cexp, FIX_exp in B1. cbn [Fnum Fexp Z.opp bpow round_mode] in B1.
    rewrite !Rmult_1_r in B1. change (B2R (Bnearbyint mode_NA y)) with (num (f_round y)) in B1.
    set (k := ZnearestA Q) in *. pose proof (Rabs_le_inv _ _ (Znearest_half (Z.leb 0) Q)) as HF. change (Znearest (Z.leb 0) Q) with k in HF.
    assert (F : (0 <= k <= 2 ^ 30)%Z).
    { assert (-1 < k)%Z by (apply lt_IZR; lra). assert (k <= 2 ^ 30)%Z; [|lia]. assert (k < 4 * n + 1)%Z; [|lia].
      apply lt_IZR. rewrite plus_IZR, mult_IZR. lra. }
    exists k. split; [|split; [exact F|lra]]. apply int_ok; [|exact B1|lia]. unfold is_num in *. rewrite <- Q2. exact B2.
  Qed.

  (** what is known of the closest knot [k]: it is in the range of int, the knot before it is not above [x]; [top] is a
      number of cells after which the knots are not below [x] *)
  Lemma closest_ok deg : (1 <= deg)%Z -> exists k, closest_uniform deg o h x = Ok k /\ (0 <= k <= 2 ^ 30)%Z /\
    ((1 <= k)%Z -> kn (k - 1) <= num x) /\ num x <= kn (k + (if Z.even deg then 1 else 2)).
  Proof.
    intros Hd. destruct (Z.even deg) eqn:E.
    - destruct (closest_even deg E) as (k & K1 & K2 & K3). exists k. split; [exact K1|]. split; [exact K2|]. split.
      + intros K4. apply low; [lia|]. replace (IZR k - 3 / 4) with (IZR (4 * k - 3) / 4) by (rewrite minus_IZR, mult_IZR; lra).
        apply q_low; [lia|]. rewrite minus_IZR, mult_IZR. lra.
      + apply up; [lia|]. replace (IZR k + 3 / 4) with (IZR (4 * k + 3) / 4) by (rewrite plus_IZR, mult_IZR; lra).
        apply q_up; [lia|]. rewrite plus_IZR, mult_IZR. lra.
    - destruct (closest_odd deg E) as (k & K1 & K2 & K3). exists k. split; [exact K1|]. split; [exact K2|]. split.
      + intros K4. apply low; [lia|]. replace (IZR k - 3 / 4) with (IZR (4 * k - 3) / 4) by (rewrite minus_IZR, mult_IZR; lra).
        apply q_low; [lia|]. rewrite minus_IZR, mult_IZR. lra.
      + replace (k + 2)%Z with (k + 1 + 1)%Z by lia. apply up; [lia|].
        replace (IZR (k + 1) + 3 / 4) with (IZR (4 * k + 7) / 4) by (rewrite !plus_IZR, mult_IZR; lra).
        apply q_up; [lia|]. rewrite !plus_IZR, mult_IZR. lra.
  Qed.
  (** a grid which begins at 0: one cell is enough *)
  Lemma closest_zero deg : num o = 0 -> Z.even deg = false -> forall k, closest_uniform deg o h x = Ok k -> num x <= kn (k + 1).
  Proof.
    intros Z0 E k K. destruct (closest_odd deg E) as (k' & K1 & K2 & K3). assert (k' = k) by congruence. subst k'.
    assert (L : q < IZR (k + 1)).
    { replace (IZR (k + 1)) with (IZR (4 * (k + 1)) / 4) by (rewrite mult_IZR; lra). apply q_up; [lia|]. rewrite mult_IZR, plus_IZR. lra. }
    apply d_q in L. rewrite Z0, Rminus_0_r, rnd_num in L. rewrite Z0, Rplus_0_l, rnd_idem. rewrite <- (rnd_num x). apply rnd_le. lra.
  Qed.

  Lemma bool_of (b : bool) : (if b then 1 else 0)%Z = 1%Z /\ b = true \/ (if b then 1 else 0)%Z = 0%Z /\ b = false.
  Proof. destruct b; auto. Qed.

  (** the first knot of the stencil; the last one if [x] is at most one cell beyond the closest knot, or the degree is at least 2 *)
  Lemma stencil_ok deg : (1 <= deg <= n)%Z -> exists f, find_stencil_f64 deg o h n x = Ok f /\ (0 <= f <= n - deg)%Z /\ kn f <= num x /\
    ((forall k, closest_uniform deg o h x = Ok k -> num x <= kn (k + 1)) \/ (2 <= deg)%Z -> num x <= kn (f + deg)).
  Proof.
    intros Hd. destruct (closest_ok deg) as (k & K1 & K2 & K3 & K4); [lia|]. destruct x_range as (X1 & XL & XU).
    unfold max_cells in N. destruct (knot_ok k) as [C1 C2]; [lia|].
    unfold find_stencil_f64. rewrite K1. cbn [bind]. set (b := Bltb x (knot_f64 o h k)).
    pose proof (Z.div_mod deg 2 ltac:(lia)) as DM. pose proof (Z.mod_pos_bound deg 2 ltac:(lia)) as MB.
    assert (EV : Z.even deg = true /\ (deg mod 2 = 0)%Z \/ Z.even deg = false /\ (deg mod 2 = 1)%Z).
    { rewrite Zmod_even. destruct (Z.even deg); auto. }
    set (s := (deg mod 2 * (if b then 1 else 0))%Z). assert (SB : (0 <= s <= 1)%Z) by (unfold s; destruct b; lia).
    set (m := (deg / 2)%Z) in *. assert (M0 : (0 <= m)%Z) by (apply Z.div_pos; lia).
    (* a first knot [k - m - s] which is not negative is not above x *)
    assert (LO : (0 <= k - m - s)%Z -> kn (k - m - s) <= num x).
    { intros P. destruct EV as [[E1 E2]|[E1 E2]].
      - assert (1 <= m)%Z by lia. eapply Rle_trans; [|apply K3; lia]. apply knot_mono; lia.
      - destruct (bool_of b) as [[B1 B2]|[B1 B2]].
        + assert (s = 1)%Z by (unfold s; rewrite E2, B1; lia). eapply Rle_trans; [|apply K3; lia]. apply knot_mono; lia.
        + unfold b in B2. apply ltb_false in B2; [|assumption..]. rewrite C1 in B2. eapply Rle_trans; [|exact B2]. apply knot_mono; lia. }
    (* the last knot *)
    assert (UP : (forall k, closest_uniform deg o h x = Ok k -> num x <= kn (k + 1)) \/ (2 <= deg)%Z -> num x <= kn (k - m - s + deg)).
    { intros P. destruct EV as [[E1 E2]|[E1 E2]].
      - assert (s = 0)%Z by (unfold s; rewrite E2; lia). rewrite E1 in K4. eapply Rle_trans; [exact K4|]. apply knot_mono; lia.
      - destruct (bool_of b) as [[B1 B2]|[B1 B2]].
        + unfold b in B2. apply ltb_num in B2; [|assumption..]. rewrite C1 in B2. apply Rlt_le. eapply Rlt_le_trans; [exact B2|].
          apply knot_mono; lia.
        + assert (s = 0)%Z by (unfold s; rewrite B1; lia). destruct P as [P|P].
          * eapply Rle_trans; [apply (P k K1)|]. apply knot_mono; lia.
          * rewrite E1 in K4. eapply Rle_trans; [exact K4|]. apply knot_mono; lia. }
    destruct (- m - s <? 0 - k)%Z eqn:T1.
    - apply Z.ltb_lt in T1. exists 0%Z. split; [reflexivity|]. split; [lia|]. split; [rewrite knot_0; exact XL|].
      intros P. eapply Rle_trans; [apply UP; setoid_rewrite K1; exact P|]. apply knot_mono; lia.
    - apply Z.ltb_ge in T1. destruct (n - deg <? k + (- m - s))%Z eqn:T2.
      + apply Z.ltb_lt in T2. exists (n - deg)%Z. split; [reflexivity|]. split; [lia|]. split.
        * eapply Rle_trans; [|apply LO; lia]. apply knot_mono; lia.
        * intros _. replace (n - deg + deg)%Z with n by lia. exact XU.
      + apply Z.ltb_ge in T2. exists (k + (- m - s))%Z. split; [reflexivity|]. split; [lia|].
        replace (k + (- m - s))%Z with (k - m - s)%Z by lia. split; [apply LO; lia|]. intros P. apply UP. setoid_rewrite K1. exact P.
  Qed.
  (** the assertions *)
  Lemma asserts_ok asserts deg f : (1 <= deg <= n)%Z -> find_stencil_f64 deg o h n x = Ok f -> (0 <= f <= n - deg)%Z ->
    kn f <= num x -> num x <= kn (f + deg) -> stencil_f64 asserts deg o h n x = Ok f.
  Proof.
    intros Hd F R L U. unfold max_cells in N. destruct x_range as (X1 & _). destruct (knot_ok f) as [A1 A2]; [lia|]. destruct (knot_ok (f + deg)) as [B1 B2]; [lia|].
    unfold stencil_f64. rewrite F. cbn [bind]. replace (Bleb (knot_f64 o h f) x) with true by (symmetry; apply leb_num; [assumption..|rewrite A1; exact L]).
    replace (Bleb x (knot_f64 o h (f + deg))) with true by (symmetry; apply leb_num; [assumption..|rewrite B1; exact U]).
    destruct asserts; reflexivity.
  Qed.
End Grid.

(** ** The theorems *)
Theorem stencil_surrounds asserts deg o h n x : uniform_grid o h -> (1 <= n <= max_cells)%Z -> on_grid o h n x -> (2 <= deg <= n)%Z ->
  exists f, stencil_f64 asserts deg o h n x = Ok f /\ in_grid n deg f /\ starts_before o h f x /\ ends_after o h (f + deg) x.
Proof.
  intros G N X D. destruct (stencil_ok o h G n N x X deg) as (f & F1 & F2 & F3 & F4); [lia|]. specialize (F4 (or_intror (proj1 D))).
  exists f. split; [apply asserts_ok; auto; lia|]. split; [unfold in_grid; lia|]. split; eexists; (split; [apply is_knot_eq; reflexivity|assumption]).
Qed.
Theorem stencil_surrounds_zero asserts deg o h n x : uniform_grid o h -> (1 <= n <= max_cells)%Z -> on_grid o h n x -> (1 <= deg <= n)%Z -> num o = 0 ->
  exists f, stencil_f64 asserts deg o h n x = Ok f /\ in_grid n deg f /\ starts_before o h f x /\ ends_after o h (f + deg) x.
Proof.
  intros G N X D Z0. destruct (stencil_ok o h G n N x X deg) as (f & F1 & F2 & F3 & F4); [lia|].
  assert (U : num x <= round radix2 (FLT_exp (-1074) 53) ZnearestE (num o + round radix2 (FLT_exp (-1074) 53) ZnearestE (IZR (f + deg) * num h))).
  { apply F4. destruct (Z.eq_dec deg 1) as [->|]; [|right; lia]. left. intros k K. now apply (closest_zero o h G n N x X 1). }
  exists f. split; [apply asserts_ok; auto; lia|]. split; [unfold in_grid; lia|]. split; eexists; (split; [apply is_knot_eq; reflexivity|assumption]).
Qed.
(** any degree, assertions disabled: the stencil is in the grid and does not begin after the coordinate *)
Theorem stencil_starts deg o h n x : uniform_grid o h -> (1 <= n <= max_cells)%Z -> on_grid o h n x -> (1 <= deg <= n)%Z ->
  exists f, stencil_f64 false deg o h n x = Ok f /\ in_grid n deg f /\ starts_before o h f x.
Proof.
  intros G N X D. destruct (stencil_ok o h G n N x X deg) as (f & F1 & F2 & F3 & _); [lia|].
  exists f. split; [unfold stencil_f64; rewrite F1; reflexivity|]. split; [unfold in_grid; lia|]. eexists; (split; [apply is_knot_eq; reflexivity|assumption]).
Qed.

(** ** Counterexample: degree 1, origin -1, step 0.7, the double which follows the knot number 3 *)
Definition f_07 : F64 := f_lit 6305039478318694 (-53).
Definition f_11m : F64 := f_lit 4953959590107545 (-52).
Lemma grid_07 : uniform_grid (b64 (-1)) f_07.
Proof.
  destruct (b64_ok (-1)) as [O1 O2]; [lia|]. change (num (b64 (-1)) = -1) in O1. destruct (lit_ok 6305039478318694 (-53)) as [U1 U2]; [lia..|]. fold f_07 in U1, U2.
  split; [exact O2|]. split; [exact U2|]. split.
  - rewrite O1. replace (Rabs (-1)) with 1 by (rewrite Rabs_left; lra). change 1 with (bpow radix2 0). apply bpow_le. lia.
  - rewrite U1. replace (bpow radix2 (-53)) with (/ 9007199254740992) by reflexivity. split.
    + apply Rle_trans with (bpow radix2 (-1)); [apply bpow_le; lia|]. change (bpow radix2 (-1)) with (/ 2). lra.
    + apply Rle_trans with (bpow radix2 0); [change (bpow radix2 0) with 1; lra|apply bpow_le; lia].
Qed.
Lemma on_07 m e n : (Z.abs m < 2 ^ 53)%Z -> (-1074 <= e <= 900)%Z -> (0 <= n <= 100)%Z ->
  Bleb (knot_f64 (b64 (-1)) f_07 0) (f_lit m e) = true -> Bleb (f_lit m e) (knot_f64 (b64 (-1)) f_07 n) = true -> on_grid (b64 (-1)) f_07 n (f_lit m e).
Proof.
  intros M E Hn A B. destruct (lit_ok m e M E) as [_ L2]. destruct (knot_ok _ _ grid_07 0) as [K1 K2]; [lia|]. destruct (knot_ok _ _ grid_07 n) as [K3 K4]; [lia|].
  apply leb_num in A; [|assumption..]. apply leb_num in B; [|assumption..]. rewrite K1 in A. rewrite K3 in B.
  split; [exact L2|]. eexists. eexists. split; [apply is_knot_eq; reflexivity|]. split; [apply is_knot_eq; reflexivity|]. auto.
Qed.
Theorem linear_assertion : stencil_f64 true 1 (b64 (-1)) f_07 10 f_11m = AssertFail.
Proof. vm_compute. reflexivity. Qed.
Theorem stencil_false : ~ (forall deg o h n x, uniform_grid o h -> (1 <= n <= max_cells)%Z -> on_grid o h n x -> (1 <= deg <= n)%Z ->
  exists f, stencil_f64 true deg o h n x = Ok f).
Proof.
  intros Q. destruct (Q 1%Z (b64 (-1)) f_07 10%Z f_11m) as [f F].
  - exact grid_07.
  - unfold max_cells. lia.
  - apply on_07; [lia..| |]; vm_compute; reflexivity.
  - lia.
  - rewrite linear_assertion in F. discriminate.
Qed.
Theorem stencil_end_false : ~ (forall deg o h n x f, uniform_grid o h -> (1 <= n <= max_cells)%Z -> on_grid o h n x -> (1 <= deg <= n)%Z ->
  stencil_f64 false deg o h n x = Ok f -> ends_after o h (f + deg) x).
Proof.
  intros Q. destruct (Q 1%Z (b64 (-1)) f_07 10%Z f_11m 2%Z) as (b & B1 & B2).
  - exact grid_07.
  - unfold max_cells. lia.
  - apply on_07; [lia..| |]; vm_compute; reflexivity.
  - lia.
  - vm_compute. reflexivity.
  - apply (proj1 (is_knot_eq _ _ _ _)) in B1. destruct (knot_ok _ _ grid_07 (2 + 1)) as [K1 K2]; [lia|]. rewrite <- K1 in B1. subst b.
    destruct (lit_ok 4953959590107545 (-52)) as [_ U2]; [lia..|]. apply leb_num in B2; [|assumption..]. vm_compute in B2. discriminate.
Qed.
Lemma ex_stencil : uniform_grid (b64 (-1)) f_07 /\ on_grid (b64 (-1)) f_07 10 f_11m /\
  stencil_f64 true 3 (b64 (-1)) f_07 10 f_11m = Ok 1%Z /\ stencil_f64 true 2 (b64 (-1)) f_07 10 f_11m = Ok 2%Z /\
  stencil_f64 true 3 (b64 (-1)) f_07 10 (f_lit 23 (-2)) = Ok 7%Z /\ stencil_f64 true 4 (b64 (-1)) f_07 10 (b64 (-1)) = Ok 0%Z.
Proof.
  split; [exact grid_07|]. split; [apply on_07; [lia..| |]; vm_compute; reflexivity|]. repeat split; vm_compute; reflexivity.
Qed.
Lemma ex_zero : num (b64 0) = 0 /\ stencil_f64 true 1 (b64 0) f_07 10 f_11m = Ok 1%Z /\ stencil_f64 true 1 (b64 0) f_07 10 (b64 7) = Ok 9%Z.
Proof. destruct (b64_ok 0) as [O1 _]; [lia|]. split; [exact O1|]. split; vm_compute; reflexivity. Qed.
