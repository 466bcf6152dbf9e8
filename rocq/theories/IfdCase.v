(** The non-uniform case of the interface derivatives (C68). *)
From Verif Require Import IfdSpec IfdAnalysis OnionProofs IfdProofs IfdMain.
From Coq Require Import ZifyBool.
Open Scope R_scope.

Section Pair.
Variables p1 p2 : side.
Hypothesis O1 : ordered p1.
Hypothesis O2 : ordered p2.
Local Notation pp := (pp p1 p2).
Local Notation E := (E p1 p2).
Local Notation good := (good p1 p2).
Local Notation relo := (relo p1 p2).
Local Notation inv := (inv p1 p2).
Local Notation consistent := (consistent p1 p2).

Lemma scale_len f v : length (scale_weights f v) = length v.
Proof. apply map_length. Qed.
Lemma v_len s b : good s -> length (v_of b s) = length (sd_x (pp b)).
Proof. intros [A B _]. destruct b; cbn; auto. Qed.
Lemma v_zero s b : good s -> wt (pp b) (v_of b s) 0 = wt p2 (w2 s) 0.
Proof. intros [A B C]. destruct b; cbn; auto. Qed.

Lemma second_gen on1 lam jo t0 : good t0 -> relo on1 t0 1 jo -> -1 / 2 < own on1 t0 < 0 ->
  (2 <= cells (pp on1))%nat -> nxt (pp on1) 1 = 2%nat ->
  let c := dist (pp on1) 1 - dist (pp on1) 0 in let f := dist (pp on1) 2 - dist (pp on1) 1 in
  let ka := kap c f in let ph := phi c f in
  0 < 1 - lam -> (1 - lam) / 2 < 1 - own on1 t0 * ka - lam ->
  let d := 1 - own on1 t0 * ka in let fa := 1 / d * own on1 t0 in
  let gp := sg on1 * (3 / 2 / (c + f) * (c / f)) in let gi := sg on1 * (3 / 2 / (c + f) * (f / c - c / f)) in
  let gm := sg on1 * (3 / 2 / (c + f) * (- (f / c))) in
  exists v u, adds (pp on1) (scale_weights (1 / d) (v_of on1 t0)) [(2%nat, fa * gp); (1%nat, fa * gi); (0%nat, fa * gm)] = Ok v /\
    adds (pp (negb on1)) (scale_weights (1 / d) (v_of (negb on1) t0)) [(0%nat, fa * gm)] = Ok u /\
    forall t1, own on1 t1 = ph * own on1 t0 / d -> other on1 t1 = other on1 t0 / d -> v_of on1 t1 = v -> v_of (negb on1) t1 = u ->
      inv on1 (other on1 t0) lam 2 jo t0 t1.
Proof.
  intros G0 R0 OW Hc NX c f ka ph L0 L1 d fa gp gi gm.
  assert (OO := pp_ordered p1 p2 O1 O2 on1). pose proof (cells_lt _ OO) as CL.
  pose proof (dist_lt (pp on1) 0 1 OO ltac:(lia)) as D1. pose proof (nxt_lt _ 1 OO ltac:(lia)) as NL. rewrite NX in NL.
  pose proof (dist_lt (pp on1) 1 2 OO ltac:(lia)) as D2.
  assert (PC : 0 < c) by (unfold c; lra). assert (PF : 0 < f) by (unfold f; lra).
  destruct (kap_phi c f PC PF) as (HK & HP & KP). fold ka in HK, KP. fold ph in HP, KP.
  assert (KO : 0 < own on1 t0 * ka < 1 / 4) by nra.
  assert (Dd : 3 / 4 < d < 1) by (unfold d; lra).
  assert (NO : (0 < length (sd_x (pp (negb on1))))%nat) by (pose proof (cells_lt _ (pp_ordered p1 p2 O1 O2 (negb on1))); lia).
  destruct (adds_spec (pp on1) [(2%nat, fa * gp); (1%nat, fa * gi); (0%nat, fa * gm)] (scale_weights (1 / d) (v_of on1 t0))) as (v & A & LV & S & Z).
  { rewrite scale_len. apply v_len; auto. }
  { intros k a [H|[H|[H|[]]]]; injection H as <- <-; lia. }
  destruct (adds_spec (pp (negb on1)) [(0%nat, fa * gm)] (scale_weights (1 / d) (v_of (negb on1) t0))) as (u & B & LU & S' & Z').
  { rewrite scale_len. apply v_len; auto. }
  { intros k a [H|[]]; injection H as <- <-; lia. }
  exists v, u. split; [exact A|]. split; [exact B|]. intros t1 E1 E2 E3 E4.
  rewrite scale_wt in Z, Z'. cbn [asum Nat.eqb] in Z, Z'. rewrite scale_len, v_len in LV, LU by auto.
  rewrite (v_zero t0) in Z, Z' by auto.
  assert (G1 : good t1).
  { destruct on1; cbn [v_of negb] in *; split; subst v u; auto; cbn in Z, Z'; rewrite Z, Z'; ring. }
  split; auto.
  - apply relo_iff. intros FL FR YL YR C. apply relo_iff with (FL := FL) (FR := FR) (YL := YL) (YR := YR) in R0; [|exact C].
    destruct (zero_of p1 p2 on1 FL FR YL YR C) as [Y0 F0]. destruct (zero_of p1 p2 (negb on1) FL FR YL YR C) as [_ F0'].
    pose proof (se_cell _ _ _ _ (side_of p1 p2 on1 FL FR YL YR C) 1 ltac:(lia)) as EQ. unfold closer, further in EQ. rewrite NX in EQ.
    change (1 - 1)%nat with 0%nat in EQ. fold c f ka ph in EQ. rewrite Y0, F0 in EQ.
    rewrite (E_side p1 p2 on1 t1 FL FR YL YR C G1), E3, E4, S, S', Z, !wsum_scale.
    rewrite (E_side p1 p2 on1 t0 FL FR YL YR C G0), v_zero in R0 by auto.
    cbn [asum]. rewrite F0, F0', E1, E2.
    set (W := wsum (pp on1) (v_of on1 t0) (F_ on1 FL FR)) in *. set (W' := wsum (pp (negb on1)) (v_of (negb on1) t0) (F_ (negb on1) FL FR)) in *.
    set (Y1 := F_ on1 YL YR 1%nat) in *. set (Y2 := F_ on1 YL YR 2%nat) in *. set (YO := F_ (negb on1) YL YR jo) in *.
    set (F1 := F_ on1 FL FR 1%nat) in *. set (F2 := F_ on1 FL FR 2%nat) in *.
    assert (GG : sg on1 * gam c f (FR 0%nat) F1 F2 = gp * F2 + gi * F1 + gm * FR 0%nat) by (unfold gp, gi, gm, gam; ring).
    rewrite GG in EQ.
    assert (D : d * YR 0%nat = W + (W' - wt p2 (w2 t0) 0 * FR 0%nat) + own on1 t0 * (gp * F2 + gi * F1 + gm * FR 0%nat) + own on1 t0 * ph * Y2 + other on1 t0 * YO).
    { unfold d. rewrite EQ in R0. rewrite Rmult_minus_distr_r, Rmult_1_l. rewrite R0 at 1. ring. }
    replace (YR 0%nat) with (1 / d * (d * YR 0%nat)) at 1 by (field; lra). rewrite D. unfold fa. field. lra.
  - change (2 - 1)%nat with 1%nat. rewrite pow_1, Rabs_left; lra.
  - exists 1, d, 1, 1, ph. split; [exact HP|].
    assert (ph * 1 / d = ph / d) by (field; lra).
    split; [rewrite E1; field; lra|]. split; [field|]. split; [rewrite E2; field; lra|].
    split; [lra|]. split; [lra|]. split; [lra|]. split; [lra|]. split; [lra|]. split; [unfold d; lra|].
    rewrite H. assert (own on1 t0 * ka < - ka / 2) by nra.
    split; apply Rmult_lt_reg_r with d; try lra; replace (ph / d * d) with ph by (field; lra); unfold d; lra.
Qed.

Lemma idx_one p : (interface_idx p + idx_step p = interface_idx p + Z.of_nat 1 * idx_step p)%Z.
Proof. lia. Qed.
Lemma idx_two p : (interface_idx p + 2 * idx_step p = interface_idx p + Z.of_nat 2 * idx_step p)%Z.
Proof. lia. Qed.
Lemma idx_zero p : (interface_idx p = interface_idx p + Z.of_nat 0 * idx_step p)%Z.
Proof. lia. Qed.

Lemma second_2_spec lam jo t0 : good t0 -> relo false t0 1 jo -> -1 / 2 < s2 t0 < 0 -> (2 <= cells p2)%nat -> nxt p2 1 = 2%nat ->
  (forall ka, -1 / 2 < ka < 0 -> 0 < 1 - lam /\ (1 - lam) / 2 < 1 - s2 t0 * ka - lam) ->
  exists t1, second_slot_2 p1 p2 t0 = Ok t1 /\ inv false (s1 t0) lam 2 jo t0 t1.
Proof.
  intros G0 R0 OW Hc NX HL. pose proof (cells_lt _ O2) as CL.
  pose proof (nxt_lt _ 1 O2 ltac:(lia)) as NL. rewrite NX in NL.
  pose proof (dist_lt p2 0 1 O2 ltac:(lia)) as D1. pose proof (dist_lt p2 1 2 O2 ltac:(lia)) as D2.
  destruct (kap_phi (dist p2 1 - dist p2 0) (dist p2 2 - dist p2 1) ltac:(lra) ltac:(lra)) as (HK & HP & KP).
  destruct (HL _ HK) as [L0 L1].
  destruct (second_gen false lam jo t0 G0 R0 OW Hc NX L0 L1) as (v & u & A & B & T). cbv zeta in T.
  cbn [IfdProofs.pp own other negb v_of sg] in *.
  set (c := dist p2 1 - dist p2 0) in *. set (f := dist p2 2 - dist p2 1) in *.
  set (d := 1 - s2 t0 * kap c f) in *. set (fa := 1 / d * s2 t0) in *.
  eexists. split.
  - unfold second_slot_2. pose proof (lengths_at p1 p2 O1 O2 false (Z.of_nat 1) 1 eq_refl ltac:(lia) ltac:(cbn; lia)) as LA; cbn [IfdProofs.pp] in LA. rewrite (idx_one p2), LA. cbn [bind]. clear LA.
    change (1 + 1)%nat with 2%nat. change (1 - 1)%nat with 0%nat. fold c f.
    assert (Eb : get_beta c f = kap c f) by (unfold get_beta, kap; field; unfold c, f; lra).
    assert (Ea : get_alpha c f = phi c f) by (unfold get_alpha, phi; field; unfold c, f; lra).
    rewrite Ea, Eb. unfold get_gammas. fold d. fold fa.
    replace (fa * (3 / 2 / (c + f) * (c / f))) with (fa * (1 * (3 / 2 / (c + f) * (c / f)))) by ring.
    replace (fa * (3 / 2 / (c + f) * (f / c - c / f))) with (fa * (1 * (3 / 2 / (c + f) * (f / c - c / f)))) by ring.
    replace (fa * (- (3 / 2 / (c + f)) * (f / c))) with (fa * (1 * (3 / 2 / (c + f) * - (f / c)))) by ring.
    rewrite (idx_two p2). rewrite (add_at_eq _ (interface_idx p1) _ _ (idx_zero p1)).
    cbn [adds] in A, B.
    destruct (add_at (scale_weights (1 / d) (w2 t0)) _ _) as [v1| | |] eqn:A1; cbn [bind] in A; try discriminate. cbn [bind].
    destruct (add_at v1 _ _) as [v2| | |] eqn:A2; cbn [bind] in A; try discriminate. cbn [bind].
    rewrite (add_at_eq _ (interface_idx p2) _ _ (idx_zero p2)).
    destruct (add_at v2 _ _) as [v3| | |] eqn:A3; cbn [bind] in A; try discriminate. cbn [bind].
    destruct (add_at (scale_weights (1 / d) (w1 t0)) _ _) as [v4| | |] eqn:A4; cbn [bind] in B; try discriminate. cbn [bind].
    replace v3 with v by congruence. replace v4 with u by congruence. reflexivity.
  - apply T; reflexivity.
Qed.
Lemma second_1_spec lam jo t0 : good t0 -> relo true t0 1 jo -> -1 / 2 < s1 t0 < 0 -> (2 <= cells p1)%nat -> nxt p1 1 = 2%nat ->
  (forall ka, -1 / 2 < ka < 0 -> 0 < 1 - lam /\ (1 - lam) / 2 < 1 - s1 t0 * ka - lam) ->
  exists t1, second_slot_1 p1 p2 t0 = Ok t1 /\ inv true (s2 t0) lam 2 jo t0 t1.
Proof.
  intros G0 R0 OW Hc NX HL. pose proof (cells_lt _ O1) as CL.
  pose proof (nxt_lt _ 1 O1 ltac:(lia)) as NL. rewrite NX in NL.
  pose proof (dist_lt p1 0 1 O1 ltac:(lia)) as D1. pose proof (dist_lt p1 1 2 O1 ltac:(lia)) as D2.
  destruct (kap_phi (dist p1 1 - dist p1 0) (dist p1 2 - dist p1 1) ltac:(lra) ltac:(lra)) as (HK & HP & KP).
  destruct (HL _ HK) as [L0 L1].
  destruct (second_gen true lam jo t0 G0 R0 OW Hc NX L0 L1) as (v & u & A & B & T). cbv zeta in T.
  cbn [IfdProofs.pp own other negb v_of sg] in *.
  set (c := dist p1 1 - dist p1 0) in *. set (f := dist p1 2 - dist p1 1) in *.
  assert (PC : 0 < c) by (unfold c; lra). assert (PF : 0 < f) by (unfold f; lra).
  set (d := 1 - s1 t0 * kap c f) in *. set (fa := 1 / d * s1 t0) in *.
  eexists. split.
  - unfold second_slot_1. pose proof (lengths_at p1 p2 O1 O2 true (Z.of_nat 1) 1 eq_refl ltac:(lia) ltac:(cbn; lia)) as LA; cbn [IfdProofs.pp] in LA. rewrite (idx_one p1), LA. cbn [bind]. clear LA.
    change (1 + 1)%nat with 2%nat. change (1 - 1)%nat with 0%nat. fold c f.
    assert (Eb : get_beta f c = phi c f) by (unfold get_beta, phi; field; lra).
    assert (Ea : get_alpha f c = kap c f) by (unfold get_alpha, kap; field; lra).
    rewrite Ea, Eb. unfold get_gammas. fold d. fold fa.
    replace (fa * (- (3 / 2 / (f + c)) * (c / f))) with (fa * (-1 * (3 / 2 / (c + f) * (c / f)))) by (field; lra).
    replace (fa * (3 / 2 / (f + c) * (c / f - f / c))) with (fa * (-1 * (3 / 2 / (c + f) * (f / c - c / f)))) by (field; lra).
    replace (fa * (3 / 2 / (f + c) * (f / c))) with (fa * (-1 * (3 / 2 / (c + f) * - (f / c)))) by (field; lra).
    rewrite (idx_two p1). rewrite (add_at_eq _ (interface_idx p2) _ _ (idx_zero p2)).
    cbn [adds] in A, B.
    destruct (add_at (scale_weights (1 / d) (w1 t0)) _ _) as [v1| | |] eqn:A1; cbn [bind] in A; try discriminate. cbn [bind].
    destruct (add_at v1 _ _) as [v2| | |] eqn:A2; cbn [bind] in A; try discriminate. cbn [bind].
    rewrite (add_at_eq _ (interface_idx p1) _ _ (idx_zero p1)).
    destruct (add_at v2 _ _) as [v3| | |] eqn:A3; cbn [bind] in A; try discriminate. cbn [bind].
    destruct (add_at (scale_weights (1 / d) (w2 t0)) _ _) as [v4| | |] eqn:A4; cbn [bind] in B; try discriminate. cbn [bind].
    replace v3 with v by congruence. replace v4 with u by congruence. reflexivity.
  - apply T; try reflexivity; cbn. rewrite Rmult_comm. reflexivity.
Qed.

(** assignments to fields of zeros *)
Lemma wr_new p w k v : (k < length (sd_x p))%nat -> length w = length (sd_x p) -> wt p w k = 0 -> exists w',
  wr w (interface_idx p + Z.of_nat k * idx_step p) v = Ok w' /\ length w' = length w /\
  (forall j, (j < length (sd_x p))%nat -> wt p w' j = wt p w j + if (j =? k)%nat then v else 0).
Proof.
  intros Hk L Z. destruct (wr_pos p w k v Hk L) as (w' & A & B & C). exists w'. split; [exact A|]. split; [exact B|].
  intros j Hj. rewrite C by auto. destruct (Nat.eqb_spec j k); [subst; lra|lra].
Qed.
Lemma wt_zero p n k : wt p (repeat 0 n) k = 0.
Proof.
  unfold wt. destruct (Nat.ltb_spec (pos p k) n).
  - apply (repeat_spec n 0). apply nth_In. rewrite repeat_length. auto.
  - apply nth_overflow. rewrite repeat_length. auto.
Qed.
Lemma wsum_zero p n F : wsum p (repeat 0 n) F = 0.
Proof. unfold wsum. apply Rsum_zero. intros i Hi. rewrite wt_zero. ring. Qed.
Lemma first_spec : (2 <= length (sd_x p1))%nat -> (2 <= length (sd_x p2))%nat ->
  exists t0, first_slot p1 p2 = Ok t0 /\ good t0 /\ rel p1 p2 t0 1 1 /\ s1 t0 = kap (dist p1 1) (dist p2 1) /\ s2 t0 = phi (dist p1 1) (dist p2 1) /\
    -1 / 2 < s1 t0 < 0 /\ -1 / 2 < s2 t0 < 0 /\ s1 t0 + s2 t0 = -1 / 2.
Proof.
  intros N1 N2. unfold first_slot. pose proof (lengths_interface p1 p2 false O1 O2 N1 N2) as LI. cbn in LI. rewrite LI. cbn [bind]. clear LI.
  pose proof (dist_lt p1 0 1 O1 ltac:(lia)) as D1. pose proof (dist_lt p2 0 1 O2 ltac:(lia)) as D2. rewrite dist_0 in D1, D2.
  set (l := dist p1 1) in *. set (r := dist p2 1) in *. unfold get_gammas.
  set (g0 := - (3 / 2 / (l + r)) * (r / l)). set (g1 := 3 / 2 / (l + r) * (r / l - l / r)). set (g2 := 3 / 2 / (l + r) * (l / r)).
  destruct (wr_new p1 (repeat 0 (length (sd_x p1))) 1 g0 ltac:(lia) (repeat_length _ _) (wt_zero _ _ _)) as (a & A1 & A2 & A3).
  rewrite repeat_length in A2.
  assert (Z1 : wt p1 a 0 = 0) by (rewrite A3, wt_zero by lia; cbn; ring).
  destruct (wr_new p1 a 0 g1 ltac:(lia) ltac:(lia) Z1) as (b & B1 & B2 & B3).
  destruct (wr_new p2 (repeat 0 (length (sd_x p2))) 0 g1 ltac:(lia) (repeat_length _ _) (wt_zero _ _ _)) as (c & C1 & C2 & C3).
  rewrite repeat_length in C2.
  assert (Z2 : wt p2 c 1 = 0) by (rewrite C3, wt_zero by lia; cbn; ring).
  destruct (wr_new p2 c 1 g2 ltac:(lia) ltac:(lia) Z2) as (d & E1 & E2 & E3).
  rewrite <- idx_zero in B1, C1. rewrite <- idx_one in A1, E1.
  rewrite A1. cbn [bind]. rewrite B1. cbn [bind]. rewrite C1. cbn [bind]. rewrite E1. cbn [bind].
  assert (W0 : wt p2 d 0 = g1) by (rewrite E3, C3, wt_zero by lia; cbn; ring).
  assert (W1 : wt p1 b 0 = g1) by (rewrite B3, Z1 by lia; cbn; ring).
  assert (Eb : get_beta l r = kap l r) by (unfold get_beta, kap; field; lra).
  assert (Ea : get_alpha l r = phi l r) by (unfold get_alpha, phi; field; lra).
  destruct (kap_phi l r D1 D2) as (K1 & K2 & K3).
  eexists. split; [reflexivity|]. cbn [s1 s2]. rewrite Ea, Eb.
  split; [split; cbn [w1 w2]; try congruence; lia|].
  split; [|repeat split; auto; lra].
  intros FL FR YL YR C. unfold IfdProofs.E. cbn [w1 w2 s1 s2].
  rewrite (wsum_add p1 a b 0 g1 FL ltac:(lia) B3), (wsum_add p1 _ a 1 g0 FL ltac:(lia) A3), wsum_zero.
  rewrite (wsum_add p2 c d 1 g2 FR ltac:(lia) E3), (wsum_add p2 _ c 0 g1 FR ltac:(lia) C3), wsum_zero.
  rewrite W0, (co_f _ _ _ _ _ _ C). rewrite (co_interface _ _ _ _ _ _ C) at 1. fold l r. rewrite ?Ea, ?Eb. unfold gam, g0, g1, g2. ring.
Qed.

(** the rest of a patch *)
Lemma rest_spec on1 o lam jo t0 t1 x : inv on1 o lam 2 jo t0 t1 ->
  (sd_greville (pp on1) = true -> (3 <= cells (pp on1))%nat) ->
  (sd_greville (pp on1) = false -> (3 <= cells (pp on1))%nat \/ (cells (pp on1) = 2%nat /\ x = t1)) ->
  exists t, rest_of_patch p1 p2 on1 (t0, t1, x) = Ok t /\ good (snd t) /\ relo on1 (snd t) (length (sd_x (pp on1)) - 1) jo /\
    (if sd_greville (pp on1) then own on1 (snd t) = 0 else 0 < Rabs (own on1 (snd t)) < (1 / 2) ^ cells (pp on1)) /\
    exists u v, other on1 (snd t) = o * v / u /\ 0 < u /\ 0 < v /\ 0 < u - lam * v.
Proof.
  intros I HG HN. unfold rest_of_patch. fold (pp on1).
  assert (SN : sd_n (pp on1) = Z.of_nat (length (sd_x (pp on1)))) by reflexivity.
  assert (CN : cells (pp on1) = (length (sd_x (pp on1)) - if sd_greville (pp on1) then 2 else 1)%nat) by reflexivity.
  pose proof (cells_lt _ (pp_ordered p1 p2 O1 O2 on1)) as CL.
  destruct (sd_greville (pp on1)) eqn:G.
  - specialize (HG eq_refl).
    destruct (recursion_spec p1 p2 O1 O2 on1 o lam (cells (pp on1) - 1) jo t0 t1 x (sd_n (pp on1) - 3)) as (a & b & y & A & IV & _ & _); auto; try lia.
    rewrite A. cbn [bind].
    destruct (correction_spec p1 p2 O1 O2 on1 o lam _ jo a b y IV G eq_refl ltac:(lia)) as (t2 & ka & B & G2 & R2 & OW & HK & OT).
    exists (a, b, t2). cbn [snd]. split; [exact B|]. split; [exact G2|]. split; [exact R2|]. split; [exact OW|].
    destruct (mag_step p1 p2 on1 o lam _ jo a b ka IV HK) as (_ & _ & _ & _ & u1 & u2 & v1 & v2 & M1 & M2 & M3 & M4 & M5 & M6 & M7 & M8 & M9).
    exists u2, v2. rewrite OT, M2. repeat split; lra.
  - specialize (HN eq_refl).
    destruct (recursion_spec p1 p2 O1 O2 on1 o lam (cells (pp on1)) jo t0 t1 x (sd_n (pp on1) - 1)) as (a & b & y & A & IV & Y1 & Y2); auto; try lia.
    assert (Ey : y = b). { destruct HN as [HN|[HN ->]]; [apply Y1; lia|]. destruct (Y2 HN) as (_ & -> & ->). reflexivity. }
    subst y. rewrite A. cbn [bind]. exists (a, b, b). cbn [snd]. split; [reflexivity|].
    destruct (mag_step p1 p2 on1 o lam _ jo a b (-1 / 4) IV ltac:(lra)) as (_ & _ & _ & OW & u1 & u2 & v1 & v2 & M1 & _ & M3 & _ & M5 & _ & M7 & _).
    destruct IV as [_ Gb _ Rb _ _]. split; [exact Gb|].
    split; [replace (length (sd_x (pp on1)) - 1)%nat with (cells (pp on1)) by lia; exact Rb|]. split; [exact OW|].
    exists u1, v1. repeat split; auto; lra.
Qed.

Theorem non_uniform_spec : (3 <= cells p1)%nat -> (3 <= cells p2)%nat \/ (cells p2 = 2%nat /\ sd_greville p2 = false) ->
  exists c, non_uniform_case p1 p2 = Ok c /\ good c /\ rel p1 p2 c (length (sd_x p1) - 1) (length (sd_x p2) - 1) /\
    (if sd_greville p1 then s1 c = 0 else Rabs (s1 c) < (1 / 2) ^ cells p1) /\
    (if sd_greville p2 then s2 c = 0 else Rabs (s2 c) < 2 * (1 / 2) ^ cells p2).
Proof.
  intros N1 N2. pose proof (cells_lt _ O1) as C1. pose proof (cells_lt _ O2) as C2.
  unfold non_uniform_case. assert (B1 : (sd_n p1 <? 2)%Z = false) by (unfold sd_n; lia). assert (B2 : (sd_n p2 <? 2)%Z = false) by (unfold sd_n; lia).
  rewrite B1, B2. destruct (first_spec ltac:(lia) ltac:(lia)) as (t0 & A0 & G0 & R0 & _ & _ & S1 & S2 & S12).
  rewrite A0. cbn [bind].
  assert (X1 : nxt p1 1 = 2%nat) by (unfold nxt; destruct (Nat.ltb_spec (1 + 1) (cells p1)); lia).
  assert (X2 : nxt p2 1 = 2%nat).
  { unfold nxt, cells in *. destruct (Nat.ltb_spec (1 + 1) (length (sd_x p2) - (if sd_greville p2 then 2 else 1))); [reflexivity|].
    destruct N2 as [N2|[N2 N3]]; [lia|]. rewrite N3 in *. lia. }
  destruct (second_2_spec (- 2 * s1 t0) 1 t0 G0 R0 S2 ltac:(lia) X2) as (t1 & A1 & I1).
  { intros ka HK. split; [lra|]. assert (0 < - s2 t0 * (1 + ka)) by (apply Rmult_lt_0_compat; lra). lra. }
  rewrite A1. cbn [bind].
  destruct (rest_spec false (s1 t0) (- 2 * s1 t0) 1 t0 t1 t1 I1) as (t & A2 & G2 & R2 & OW2 & u & v & OT & Hu & Hv & Hz).
  { cbn. intros. destruct N2 as [N2|[N2 N3]]; [lia|congruence]. }
  { cbn. intros. destruct N2 as [N2|[N2 N3]]; [left; lia|right; auto]. }
  rewrite A2. cbn [bind]. cbn [IfdProofs.pp] in *. set (tm := snd t) in *. cbn [own other] in OW2, OT.
  assert (Q : 0 < v / u) by (apply Rdiv_lt_0_compat; auto).
  assert (SM : -1 / 2 < s1 tm < 0).
  { rewrite OT. replace (s1 t0 * v / u) with (s1 t0 * (v / u)) by (field; lra). split; [|nra].
    apply Rmult_lt_reg_r with u; auto. replace (s1 t0 * (v / u) * u) with (s1 t0 * v) by (field; lra). lra. }
  destruct (second_1_spec (1 / 2) (length (sd_x p2) - 1) tm G2 R2 SM ltac:(lia) X1) as (t3 & A3 & I3).
  { intros ka HK. assert (s1 tm * ka < 1 / 4) by nra. lra. }
  rewrite A3. cbn [bind].
  destruct (rest_spec true (s2 tm) (1 / 2) (length (sd_x p2) - 1) tm t3 tm I3) as (t4 & A4 & G4 & R4 & OW4 & u' & v' & OT' & Hu' & Hv' & Hz').
  { cbn. intros. lia. } { cbn. intros. left. lia. }
  rewrite A4. cbn [bind]. exists (snd t4). split; [reflexivity|]. split; [exact G4|]. split; [exact R4|].
  cbn [IfdProofs.pp own other] in *. split.
  - destruct (sd_greville p1); [exact OW4|apply OW4].
  - rewrite OT'. destruct (sd_greville p2).
    + rewrite OW2. unfold Rdiv. ring.
    + replace (s2 tm * v' / u') with (s2 tm * (v' / u')) by (field; lra). rewrite Rabs_mult.
      assert (Q' : 0 < v' / u' < 2).
      { split; [apply Rdiv_lt_0_compat; auto|]. apply Rmult_lt_reg_r with u'; auto. replace (v' / u' * u') with v' by (field; lra). lra. }
      rewrite (Rabs_pos_eq (v' / u')) by lra. nra.
Qed.

(** with exactly two cells on patch 1 and no extra point there, the result is the relation with the first point of
    patch 1 away from the interface *)
Theorem two_cells_spec : cells p1 = 2%nat -> sd_greville p1 = false -> (3 <= cells p2)%nat \/ (cells p2 = 2%nat /\ sd_greville p2 = false) ->
  exists c, non_uniform_case p1 p2 = Ok c /\ good c /\ rel p1 p2 c 1 (length (sd_x p2) - 1) /\ s1 c < 0.
Proof.
  intros N1 GR1 N2. pose proof (cells_lt _ O1) as C1. pose proof (cells_lt _ O2) as C2.
  unfold non_uniform_case. assert (B1 : (sd_n p1 <? 2)%Z = false) by (unfold sd_n; lia). assert (B2 : (sd_n p2 <? 2)%Z = false) by (unfold sd_n; lia).
  rewrite B1, B2. destruct (first_spec ltac:(lia) ltac:(lia)) as (t0 & A0 & G0 & R0 & _ & _ & S1 & S2 & S12).
  rewrite A0. cbn [bind].
  assert (L1 : length (sd_x p1) = 3%nat) by (unfold cells in N1; rewrite GR1 in N1; lia).
  assert (X1 : nxt p1 1 = 2%nat) by (unfold nxt; destruct (Nat.ltb_spec (1 + 1) (cells p1)); lia).
  assert (X2 : nxt p2 1 = 2%nat).
  { unfold nxt, cells in *. destruct (Nat.ltb_spec (1 + 1) (length (sd_x p2) - (if sd_greville p2 then 2 else 1))); [reflexivity|].
    destruct N2 as [N2|[N2 N3]]; [lia|]. rewrite N3 in *. lia. }
  destruct (second_2_spec (- 2 * s1 t0) 1 t0 G0 R0 S2 ltac:(lia) X2) as (t1 & A1 & I1).
  { intros ka HK. split; [lra|]. assert (0 < - s2 t0 * (1 + ka)) by (apply Rmult_lt_0_compat; lra). lra. }
  rewrite A1. cbn [bind].
  destruct (rest_spec false (s1 t0) (- 2 * s1 t0) 1 t0 t1 t1 I1) as (t & A2 & G2 & R2 & OW2 & u & v & OT & Hu & Hv & Hz).
  { cbn. intros. destruct N2 as [N2|[N2 N3]]; [lia|congruence]. }
  { cbn. intros. destruct N2 as [N2|[N2 N3]]; [left; lia|right; auto]. }
  rewrite A2. cbn [bind]. cbn [IfdProofs.pp] in *. set (tm := snd t) in *. cbn [own other] in OW2, OT.
  assert (Q : 0 < v / u) by (apply Rdiv_lt_0_compat; auto).
  assert (SM : -1 / 2 < s1 tm < 0).
  { rewrite OT. replace (s1 t0 * v / u) with (s1 t0 * (v / u)) by (field; lra). split; [|nra].
    apply Rmult_lt_reg_r with u; auto. replace (s1 t0 * (v / u) * u) with (s1 t0 * v) by (field; lra). lra. }
  destruct (second_1_spec (1 / 2) (length (sd_x p2) - 1) tm G2 R2 SM ltac:(lia) X1) as (t3 & A3 & I3).
  { intros ka HK. assert (s1 tm * ka < 1 / 4) by nra. lra. }
  rewrite A3. cbn [bind]. unfold rest_of_patch. rewrite GR1. unfold sd_n. rewrite L1.
  change (recursion p1 p2 true (Z.of_nat 3 - 1) (tm, t3, tm)) with (Ok (tm, t3, tm)). cbn [bind snd].
  exists tm. split; [reflexivity|]. split; [exact G2|]. split; [exact R2|]. lra.
Qed.
End Pair.
