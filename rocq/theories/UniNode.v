(** check_if_node in binary64. *)
From Coq Require Import Lia Lra ZArith Reals List.
From Flocq Require Import Core IEEE754.BinarySingleNaN.
From Verif Require Import UniSpec FltBase EdgeFloat UniMain.
Open Scope R_scope.

Definition uu : R := / 9007199254740992.
Lemma uu_val : bpow radix2 (-53) = uu. Proof. reflexivity. Qed.
Lemma uu_pos : 0 < uu. Proof. unfold uu. lra. Qed.

Section Node.
  Variables (o h : F64) (deg f : Z) (x : F64).
  Hypothesis G : uniform_grid o h.
  Hypothesis DB : (1 <= deg <= max_degree)%Z.
  Hypothesis FB : (0 <= f)%Z.
  Hypothesis NB : (f + deg <= max_cells)%Z.
  Hypothesis RS : resolved o h (f + deg).
  Hypothesis X : is_num x.
  Notation O := (num o). Notation H := (num h).
  Notation kn i := (rnd (O + rnd (IZR i * H))).
  Hypothesis XL : kn f <= num x.
  Hypothesis XU : num x <= kn (f + deg).
  Notation M := (magnitude o h (f + deg)).

  Lemma m_bound : M <= 1099511627776 * H.
  Proof. pose proof RS as Q. unfold resolved in Q. replace (bpow radix2 40) with 1099511627776 in Q by (simpl; lra). exact Q. Qed.
  Lemma tiny_h : bpow radix2 (-1075) <= uu * H / 1024.
  Proof.
    destruct G as (_ & _ & _ & L & _). apply Rle_trans with (uu * bpow radix2 (-900) / 1024).
    - replace (uu * bpow radix2 (-900) / 1024) with (bpow radix2 (-53) * bpow radix2 (-900) * bpow radix2 (-10)) by (rewrite uu_val; replace (bpow radix2 (-10)) with (/ 1024) by reflexivity; reflexivity).
      rewrite <- !bpow_plus. apply bpow_le. lia.
    - pose proof uu_pos. nra.
  Qed.
  (** the knots are accurate *)
  Lemma knot_err i : (0 <= i <= f + deg)%Z -> Rabs (kn i - (O + IZR i * H)) <= 2 * uu * M + uu * H.
  Proof.
    intros Hi. unfold max_cells in NB. pose proof (h_pos o h G) as P. pose proof tiny_h as T. pose proof uu_pos as U.
    assert (I0 : 0 <= IZR i) by (apply IZR_le; lia). assert (I1 : IZR i <= IZR (f + deg)) by (apply IZR_le; lia).
    assert (I2 : IZR i <= 268435456) by (apply IZR_le; lia).
    pose proof (rnd_any (IZR i * H)) as E1. rewrite (Rabs_right (IZR i * H)), uu_val in E1 by nra.
    set (y := rnd (IZR i * H)) in *. pose proof (rnd_any (O + y)) as E2. rewrite uu_val in E2.
    pose proof (Rabs_triang O y) as E3. apply Rabs_le_inv in E1. assert (Y : 0 <= y) by (apply (prod_pos o h G); lia).
    rewrite (Rabs_right y) in E3 by lra. pose proof (Rabs_pos O) as E4.
    assert (IH : IZR i * H <= IZR (f + deg) * H) by nra. assert (IH2 : IZR i * H <= 268435456 * H) by nra.
    assert (YB : y <= IZR i * H + H / 64).
    { assert (uu * (IZR i * H) <= uu * (268435456 * H)) by nra. unfold uu in *. lra. }
    assert (E5 : Rabs (rnd (O + y) - (O + y)) <= uu * (Rabs O + IZR i * H + H / 64) + uu * H / 1024).
    { eapply Rle_trans; [exact E2|]. assert (uu * Rabs (O + y) <= uu * (Rabs O + IZR i * H + H / 64)) by (apply Rmult_le_compat_l; lra). lra. }
    apply Rabs_le_inv in E5. unfold magnitude. apply Rabs_le. unfold uu in *. lra.
  Qed.
  Notation T := (num x - kn f).
  Notation p := (T / H).
  Lemma p_eq : p * H = T. Proof. pose proof (h_pos o h G). field. lra. Qed.
  Lemma p_range : 0 <= p <= IZR deg + / 1000.
  Proof.
    pose proof (h_pos o h G) as P. pose proof p_eq as E. pose proof (knot_err f ltac:(lia)) as E1. pose proof (knot_err (f + deg) ltac:(lia)) as E2.
    apply Rabs_le_inv in E1, E2. pose proof m_bound as MB. pose proof (XL) as L1. pose proof XU as L2. set (k1 := kn f) in *. set (k2 := kn (f + deg)) in *. rewrite plus_IZR in E2. set (pp := (num x - k1) / H) in *. unfold uu in *.
    split; apply Rmult_le_reg_r with H; try exact P; rewrite E; lra.
  Qed.
  Lemma deg_r : 1 <= IZR deg <= 1048576.
  Proof. unfold max_degree in DB. split; apply IZR_le; lia. Qed.

  Notation inv := (b64_div (b64 1) h).
  Notation off := (f_mul (f_sub x (knot_f64 o h f)) inv).
  Lemma inv_ok : is_num inv /\ Rabs (num inv * H - 1) <= 1001 / 1000 * uu.
  Proof.
    pose proof (h_pos o h G) as P. destruct G as (_ & _ & _ & HL & HU). destruct (b64_ok 1) as [B1 B2]; [lia|]. change (num (b64 1) = 1) in B1.
    assert (V1 : bpow radix2 (-900) <= 1 / H).
    { apply Rmult_le_reg_r with H; [exact P|]. unfold Rdiv. rewrite Rmult_assoc, Rinv_l by lra. rewrite !Rmult_1_r.
      apply Rle_trans with (bpow radix2 (-900) * bpow radix2 900); [|rewrite <- bpow_plus; simpl; lra]. apply Rmult_le_compat_l; [apply bpow_ge_0|exact HU]. }
    assert (V2 : 1 / H <= bpow radix2 900).
    { apply Rmult_le_reg_r with H; [exact P|]. unfold Rdiv. rewrite Rmult_assoc, Rinv_l by lra. rewrite !Rmult_1_r.
      apply Rle_trans with (bpow radix2 900 * bpow radix2 (-900)); [rewrite <- bpow_plus; simpl; lra|]. apply Rmult_le_compat_l; [apply bpow_ge_0|exact HL]. }
    assert (VP : 0 < 1 / H) by (pose proof (bpow_gt_0 radix2 (-900)); lra).
    destruct (div_ok (b64 1) h) as [D1 D2]; [exact B2|lra| |].
    - rewrite B1, Rabs_right by lra. apply Rle_trans with (bpow radix2 900); [exact V2|apply bpow_le; lia].
    - split; [exact D2|]. rewrite D1, B1. pose proof (rnd_any (1 / H)) as E. rewrite (Rabs_right (1 / H)), uu_val in E by lra.
      assert (TT : bpow radix2 (-1075) <= uu * (1 / H) / 1024).
      { apply Rle_trans with (bpow radix2 (-53) * bpow radix2 (-900) * bpow radix2 (-10)); [rewrite <- !bpow_plus; apply bpow_le; lia|].
        rewrite uu_val. change (bpow radix2 (-10)) with (/ 1024). pose proof uu_pos. nra. }
      apply Rabs_le_inv in E. assert (K : 1 / H * H = 1) by (field; lra). pose proof uu_pos as UP0.
      set (z := 1 / H) in *. set (v := rnd z) in *. assert (E3 : - (1001 / 1000 * uu) * z <= v - z <= 1001 / 1000 * uu * z) by lra.
      replace (v * H - 1) with ((v - z) * H) by lra. apply Rabs_le. split.
      + replace (- (1001 / 1000 * uu)) with (- (1001 / 1000 * uu) * z * H) by (rewrite Rmult_assoc, K; ring). apply Rmult_le_compat_r; lra.
      + replace (1001 / 1000 * uu) with (1001 / 1000 * uu * z * H) at 1 by (rewrite (Rmult_assoc _ z), K; ring). apply Rmult_le_compat_r; lra.
  Qed.
  Lemma off_ok : is_num off /\ 0 <= num off /\ Rabs (num off - p) <= 302 / 100 * uu * p + uu / 1024.
  Proof.
    pose proof (h_pos o h G) as P. pose proof p_eq as PE. pose proof p_range as PR. pose proof deg_r as DR. pose proof uu_pos as U.
    unfold max_cells in NB. destruct (knot_ok o h G f) as [K1 K2]; [lia|]. destruct inv_ok as [I1 I2].
    assert (T0 : 0 <= T) by lra. assert (TB : T <= 2097152 * H) by (rewrite <- PE; apply Rmult_le_compat_r; lra).
    assert (HB : H <= bpow radix2 900) by (apply G).
    destruct (sub_ok x (knot_f64 o h f)) as [S1 S2]; [exact X|exact K2| |].
    { rewrite K1, Rabs_right by lra. apply Rle_trans with (bpow radix2 21 * bpow radix2 900); [|rewrite <- bpow_plus; apply bpow_le; lia].
      replace (bpow radix2 21) with 2097152 by (simpl; lra). lra. }
    pose proof (rnd_diff x (knot_f64 o h f)) as E1. rewrite K1, (Rabs_right T), uu_val in E1 by lra. rewrite K1 in S1.
    set (d := f_sub x (knot_f64 o h f)) in *. rewrite <- S1 in E1. apply Rabs_le_inv in E1, I2.
    set (g := num d / H). set (w := num inv * H) in *. assert (GE : num d = g * H) by (unfold g; field; lra).
    assert (GB : p * (1 - uu) <= g <= p * (1 + uu)).
    { split; apply Rmult_le_reg_r with H; try exact P; rewrite <- GE; [replace (p * (1 - uu) * H) with (p * H - uu * (p * H)) by ring|replace (p * (1 + uu) * H) with (p * H + uu * (p * H)) by ring];
        rewrite PE; lra. }
    assert (GW : num d * num inv = g * w) by (unfold g, w; field; lra).
    set (pp := p) in *. assert (U1 : uu <= / 1000000) by (unfold uu; lra).
    assert (GP : 0 <= g) by nra.
    assert (WB : 1 - 1001 / 1000 * uu <= w <= 1 + 1001 / 1000 * uu) by lra.
    assert (GW2 : pp - 2002 / 1000 * uu * pp <= g * w <= pp + 2002 / 1000 * uu * pp).
    { split.
      - apply Rle_trans with (pp * (1 - uu) * (1 - 1001 / 1000 * uu)).
        + assert (0 <= pp * (uu * uu)) by (apply Rmult_le_pos; nra). nra.
        + apply Rmult_le_compat; try lra. nra.
      - apply Rle_trans with (pp * (1 + uu) * (1 + 1001 / 1000 * uu)).
        + apply Rmult_le_compat; lra.
        + assert (0 <= pp * uu * (/ 1000000 - uu)) by (apply Rmult_le_pos; nra). nra. }
    assert (GW3 : 0 <= g * w <= 3000000) by (split; nra).
    destruct (mul_ok d inv) as [M1 M2]; [exact S2|exact I1| |].
    { rewrite GW, Rabs_right by lra. apply Rle_trans with (bpow radix2 60); [replace (bpow radix2 60) with 1152921504606846976 by (simpl; lra); lra|apply bpow_le; lia]. }
    split; [exact M2|]. rewrite M1, GW. split; [rewrite <- rnd_0; now apply rnd_le|].
    pose proof (rnd_any (g * w)) as E2. rewrite (Rabs_right (g * w)), uu_val in E2 by lra.
    assert (TT : bpow radix2 (-1075) <= uu / 1024).
    { rewrite <- uu_val. replace (bpow radix2 (-53) / 1024) with (bpow radix2 (-53) * bpow radix2 (-10)) by reflexivity. rewrite <- bpow_plus. apply bpow_le. lia. }
    apply Rabs_le_inv in E2. assert (uu * (g * w) <= uu * (pp + 2002 / 1000 * uu * pp)) by (apply Rmult_le_compat_l; lra).
    assert (uu * (2002 / 1000 * uu * pp) <= / 1000 * uu * pp) by nra. apply Rabs_le. lra.
  Qed.
  Lemma off_bound : num off <= IZR deg + / 500.
  Proof.
    destruct off_ok as (_ & _ & E). apply Rabs_le_inv in E. pose proof p_range as PR. pose proof deg_r as DR. set (pp := p) in *. unfold uu in *. lra.
  Qed.
  Notation eps := (f_mul (f_lit 1 (-52)) (b64 (deg + 1))).
  Lemma eps_ok : is_num eps /\ num eps = IZR (deg + 1) * bpow radix2 (-52).
  Proof.
    unfold max_degree in DB. destruct (lit_ok 1 (-52)) as [L1 L2]; [lia..|]. destruct (b64_ok (deg + 1)) as [B1 B2]; [lia|]. change (num (b64 (deg + 1)) = IZR (deg + 1)) in B1.
    assert (E : num (f_lit 1 (-52)) * num (b64 (deg + 1)) = IZR (deg + 1) * bpow radix2 (-52)) by (rewrite L1, B1; ring).
    destruct (mul_ok (f_lit 1 (-52)) (b64 (deg + 1))) as [M1 M2]; [exact L2|exact B2| |].
    - rewrite E. pose proof (bpow_gt_0 radix2 (-52)) as P. assert (0 <= IZR (deg + 1)) by (apply IZR_le; lia). rewrite Rabs_right by nra.
      apply Rle_trans with (bpow radix2 30 * bpow radix2 (-52)); [|rewrite <- bpow_plus; apply bpow_le; lia].
      apply Rmult_le_compat_r; [lra|]. rewrite <- pow2_bpow by lia. apply IZR_le. lia.
    - split; [exact M2|]. rewrite M1, E. apply rnd_int; lia.
  Qed.

  (** [node] is the index of the node of the stencil, or -1 *)
  Lemma node_ok asserts : exists node, check_if_node_f64 asserts deg o h f x = Ok (off, node) /\ (-1 <= node <= deg)%Z /\
    (node = (-1)%Z -> forall j : Z, IZR (deg + 1) * epsilon < Rabs (num off - IZR j)) /\
    ((0 <= node)%Z -> Rabs (num off - IZR node) <= IZR (deg + 2) * epsilon).
  Proof.
    destruct off_ok as (F1 & F2 & _). pose proof off_bound as F3. destruct eps_ok as (E1 & E2). pose proof deg_r as DR. unfold max_degree in DB.
    pose proof (Zfloor_lb (num off)) as FL. pose proof (Zfloor_ub (num off)) as FU. set (k := Zfloor (num off)) in *.
    assert (KR : (0 <= k <= deg)%Z).
    { split; [apply Zfloor_lub; exact F2|]. assert (k < deg + 1)%Z; [|lia]. apply lt_IZR. rewrite plus_IZR. lra. }
    assert (KI : f_int off = Ok k) by (apply int_trunc; [exact F1|exact F2|lia]).
    destruct (b64_ok k) as [B1 B2]; [lia|]. change (num (b64 k) = IZR k) in B1. destruct (b64_ok 1) as [O1 O2]; [lia|]. change (num (b64 1) = 1) in O1.
    set (y := num off) in *. pose proof (rnd_diff off (b64 k)) as D3. fold y in D3.
    assert (W : 1 <= bpow radix2 1000) by (change 1 with (bpow radix2 0); apply bpow_le; lia).
    destruct (sub_ok off (b64 k)) as [S1 S2]; [exact F1|exact B2| |].
    { fold y. rewrite B1, Rabs_right by lra. lra. }
    fold y in S1. rewrite B1 in S1, D3. set (r := y - IZR k) in *. assert (R01 : 0 <= r < 1) by (unfold r; lra).
    assert (RR : 0 <= rnd r <= 1).
    { split; [rewrite <- rnd_0; apply rnd_le; lra|]. replace 1 with (IZR 1 * bpow radix2 0) by (simpl; lra). rewrite <- (rnd_int 1 0) by lia. apply rnd_le. simpl. lra. }
    set (l := f_sub off (b64 k)) in *. destruct (sub_ok l (b64 1)) as [T1 T2]; [exact S2|exact O2| |].
    { rewrite S1, O1. apply Rabs_le. lra. }
    rewrite S1, O1 in T1. rewrite (Rabs_right r), uu_val in D3 by lra. apply Rabs_le_inv in D3.
    change (bpow radix2 (-52)) with epsilon in E2. assert (EV : epsilon = 2 * uu) by (unfold epsilon, uu; change (bpow radix2 (-52)) with (/ 4503599627370496); lra).
    assert (D2 : IZR (deg + 2) = IZR (deg + 1) + 1) by (rewrite !plus_IZR; lra). assert (D1 : IZR (deg + 1) = IZR deg + 1) by (rewrite plus_IZR; lra).
    set (e := IZR (deg + 1) * epsilon) in *. assert (EB : 2 * epsilon <= e <= / 1000000000).
    { unfold e. rewrite D1, EV. unfold uu. lra. }
    assert (EN : rnd e = e) by (unfold e, epsilon; apply rnd_int; lia).
    assert (EM : rnd (1 - e) = 1 - e).
    { replace (1 - e) with (IZR (2 ^ 52 - (deg + 1)) * bpow radix2 (-52)); [apply rnd_int; lia|].
      unfold e, epsilon. rewrite minus_IZR. change (bpow radix2 (-52)) with (/ 4503599627370496). change (IZR (2 ^ 52)) with 4503599627370496. lra. }
    assert (EP : rnd (- e) = - e).
    { replace (- e) with (IZR (- (deg + 1)) * bpow radix2 (-52)); [apply rnd_int; lia|]. unfold e, epsilon. rewrite opp_IZR. lra. }
    assert (NO : is_num (Bopp eps) /\ num (Bopp eps) = - e).
    { split; [unfold is_num; rewrite is_finite_Bopp; exact E1|]. unfold num. rewrite B2R_Bopp. f_equal. exact E2. }
    assert (ES : IZR (deg + 2) * epsilon = e + epsilon) by (rewrite D2; unfold e; ring).
    assert (UP0 : 0 < uu) by exact uu_pos. assert (UB : uu <= / 9007199254740992) by (unfold uu; lra). assert (UR : uu * r <= uu) by nra.
    set (node := if Bleb l eps then k else if Bleb (Bopp eps) (f_sub l (b64 1)) then (k + 1)%Z else (-1)%Z).
    exists node. assert (OUT : (-1 <= node <= deg)%Z /\
      (node = (-1)%Z -> forall j : Z, e < Rabs (y - IZR j)) /\ ((0 <= node)%Z -> Rabs (y - IZR node) <= IZR (deg + 2) * epsilon)).
    { unfold node. destruct (Bleb l eps) eqn:C1.
      - apply leb_num in C1; [|assumption..]. rewrite S1, E2 in C1. split; [lia|]. split; [lia|]. intros _. fold r. rewrite ES, Rabs_right by lra. lra.
      - apply leb_false in C1; [|assumption..]. rewrite S1, E2 in C1. destruct NO as [N1 N2]. destruct (Bleb (Bopp eps) (f_sub l (b64 1))) eqn:C2.
        + apply leb_num in C2; [|assumption..]. rewrite N2, T1 in C2.
          assert (C3 : 1 - e - 2 * uu < rnd r).
          { destruct (Rlt_or_le (1 - e - 2 * uu) (rnd r)) as [C3|C3]; [exact C3|exfalso].
            (* rnd (rnd r - 1) would be at most the double - e - 2 uu *)
            assert (C4 : rnd (rnd r - 1) <= rnd (- e - 2 * uu)) by (apply rnd_le; lra).
            assert (C5 : rnd (- e - 2 * uu) = - e - 2 * uu).
            { replace (- e - 2 * uu) with (IZR (- (deg + 2)) * bpow radix2 (-52)); [apply rnd_int; lia|].
              change (bpow radix2 (-52)) with epsilon. rewrite opp_IZR. lra. }
            lra. }
          assert (C6 : k <> deg).
          { intros K. assert (r <= / 500); [unfold r; rewrite K; lra|]. lra. }
          split; [lia|]. split; [lia|]. intros _. rewrite plus_IZR. replace (y - (IZR k + 1)) with (r - 1) by (unfold r; lra).
          rewrite ES, Rabs_left1 by lra.
          assert (C9 : rnd (1 - e - 2 * uu) = 1 - e - 2 * uu).
          { replace (1 - e - 2 * uu) with (IZR (2 ^ 52 - (deg + 2)) * bpow radix2 (-52)); [apply rnd_int; lia|].
            rewrite minus_IZR. change (bpow radix2 (-52)) with epsilon. rewrite D2. change (IZR (2 ^ 52)) with 4503599627370496.
            assert (4503599627370496 * epsilon = 1) by (unfold epsilon; change (bpow radix2 (-52)) with (/ 4503599627370496); lra). unfold e in *. lra. }
          rewrite <- C9 in C3. apply rnd_lt in C3. lra.
        + apply leb_false in C2; [|assumption..]. rewrite N2, T1 in C2. split; [lia|]. split; [|lia]. intros _ j.
          assert (L1 : e < r) by (apply rnd_lt; rewrite EN; exact C1).
          assert (L2 : rnd r - 1 < - e) by (apply rnd_lt; rewrite EP; exact C2).
          assert (L3 : r < 1 - e) by (apply rnd_lt; rewrite EM; lra).
          destruct (Z.le_gt_cases j k) as [J|J].
          * apply IZR_le in J. rewrite Rabs_right; unfold r in *; lra.
          * assert (J2 : (k + 1 <= j)%Z) by lia. apply IZR_le in J2. rewrite plus_IZR in J2. rewrite Rabs_left; unfold r in *; lra. }
    destruct OUT as (A1 & A2 & A3). split; [|auto]. unfold check_if_node_f64. rewrite KI. cbn [bind]. fold l. fold node.
    replace (-1 <=? node)%Z with true by (symmetry; apply Z.leb_le; lia). replace (node <=? deg)%Z with true by (symmetry; apply Z.leb_le; lia).
    destruct asserts; reflexivity.
  Qed.
End Node.

Theorem node_found asserts deg o h f x : uniform_grid o h -> (1 <= deg <= max_degree)%Z -> (0 <= f)%Z -> (f + deg <= max_cells)%Z ->
  resolved o h (f + deg) -> between o h f (f + deg) x ->
  exists offset node, check_if_node_f64 asserts deg o h f x = Ok (offset, node) /\ is_num offset /\ (-1 <= node <= deg)%Z /\
    (node = (-1)%Z -> forall j : Z, IZR (deg + 1) * epsilon < Rabs (num offset - IZR j)) /\
    ((0 <= node)%Z -> Rabs (num x - (num o + IZR (f + node) * num h)) <= 4 * epsilon * (magnitude o h (f + deg) + IZR (deg + 1) * num h)).
Proof.
  intros G D F N R (X & a & b & A & B & C). apply (proj1 (is_knot_eq _ _ _ _)) in A. apply (proj1 (is_knot_eq _ _ _ _)) in B. subst a b. destruct C as [XL XU].
  destruct (node_ok o h deg f x G D F N R X XL XU asserts) as (node & N1 & N2 & N3 & N4).
  destruct (off_ok o h deg f x G D F N R X XL XU) as (F1 & F2 & F3).
  eexists. exists node. split; [exact N1|]. split; [exact F1|]. split; [exact N2|]. split; [exact N3|]. intros P. specialize (N4 P).
  pose proof (knot_err o h deg f G N f ltac:(lia)) as KE.
  pose proof (p_range o h deg f x G D F N R XL XU) as PR. pose proof (deg_r deg D) as DR. pose proof (p_eq o h f x G) as PE. pose proof (h_pos o h G) as HP.
  set (y := num (f_mul _ _)) in *. set (kf := round _ _ _ (num o + round _ _ _ (IZR f * num h))) in *. set (p := (num x - kf) / num h) in *.
  assert (EV : epsilon = 2 * uu) by (unfold epsilon, uu; change (bpow radix2 (-52)) with (/ 4503599627370496); lra). rewrite EV in *.
  assert (D2 : IZR (deg + 2) = IZR deg + 2) by (rewrite !plus_IZR; lra). assert (D1 : IZR (deg + 1) = IZR deg + 1) by (rewrite plus_IZR; lra).
  rewrite D2 in N4. rewrite D1. apply Rabs_le_inv in F3, N4, KE. pose proof uu_pos as UP0.
  replace (num x - (num o + IZR (f + node) * num h)) with ((kf - (num o + IZR f * num h)) + (p - IZR node) * num h) by (rewrite plus_IZR, Rmult_minus_distr_r, PE; ring).
  assert (UPP : uu * p <= uu * (IZR deg + / 1000)) by (apply Rmult_le_compat_l; lra).
  assert (E1 : - (6 * uu * (IZR deg + 1) + uu) <= p - IZR node <= 6 * uu * (IZR deg + 1) + uu).
  { replace (302 / 100 * uu * p) with (302 / 100 * (uu * p)) in F3 by ring. lra. }
  assert (E2 : - (6 * uu * (IZR deg + 1) + uu) * num h <= (p - IZR node) * num h <= (6 * uu * (IZR deg + 1) + uu) * num h).
  { split; apply Rmult_le_compat_r; lra. }
  assert (MP : 0 <= magnitude o h (f + deg)).
  { unfold magnitude. pose proof (Rabs_pos (num o)). assert (0 <= IZR (f + deg)) by (apply IZR_le; lia). nra. }
  assert (0 <= uu * magnitude o h (f + deg)) by nra. assert (0 <= uu * num h) by nra. assert (UD : uu * num h <= uu * (IZR deg * num h)) by nra.
  apply Rabs_le. lra.
Qed.
(** at a knot of the stencil which is computed exactly, the node is found *)
Lemma ex_node : uniform_grid (b64 (-1)) f_07 /\ resolved (b64 (-1)) f_07 (2 + 3) /\ between (b64 (-1)) f_07 2 (2 + 3) f_11m /\
  match check_if_node_f64 true 3 (b64 (-1)) f_07 2 f_11m with Ok (_, node) => node = 1%Z | _ => False end /\
  match check_if_node_f64 true 3 (b64 (-1)) f_07 2 (b64 2) with Ok (_, node) => node = (-1)%Z | _ => False end.
Proof.
  split; [exact grid_07|]. destruct (b64_ok (-1)) as [O1 O2]; [lia|]. change (num (b64 (-1)) = -1) in O1.
  destruct (lit_ok 6305039478318694 (-53)) as [U1 U2]; [lia..|]. fold f_07 in U1, U2.
  split; [|split; [|split; vm_compute; reflexivity]].
  - unfold resolved, magnitude. rewrite O1, U1. replace (Rabs (-1)) with 1 by (rewrite Rabs_left; lra).
    replace (bpow radix2 (-53)) with (/ 9007199254740992) by reflexivity. replace (bpow radix2 40) with 1099511627776 by (simpl; lra). cbn [Z.add Pos.add]. lra.
  - destruct (lit_ok 4953959590107545 (-52)) as [V1 V2]; [lia..|]. fold f_11m in V1, V2. split; [exact V2|].
    destruct (knot_ok _ _ grid_07 2) as [K1 K2]; [lia|]. destruct (knot_ok _ _ grid_07 (2 + 3)) as [K3 K4]; [lia|].
    eexists. eexists. split; [apply is_knot_eq; reflexivity|]. split; [apply is_knot_eq; reflexivity|]. rewrite <- K1, <- K3. split.
    + apply leb_num; [assumption..|]. vm_compute. reflexivity.
    + apply leb_num; [assumption..|]. vm_compute. reflexivity.
Qed.
(** ** Counterexample: doubles which do not resolve the cells *)
Definition f_01 : F64 := f_lit 7205759403792794 (-56).
Definition f_2_51 : F64 := f_lit 1 51.
Definition f_far : F64 := knot_f64 f_2_51 f_01 3.
Lemma grid_01 : uniform_grid f_2_51 f_01.
Proof.
  destruct (lit_ok 1 51) as [O1 O2]; [lia..|]. fold f_2_51 in O1, O2. destruct (lit_ok 7205759403792794 (-56)) as [U1 U2]; [lia..|]. fold f_01 in U1, U2.
  split; [exact O2|]. split; [exact U2|]. split.
  - rewrite O1, Rmult_1_l, Rabs_right by (apply Rle_ge, bpow_ge_0). apply bpow_le. lia.
  - rewrite U1. replace (bpow radix2 (-56)) with (/ 72057594037927936) by reflexivity. split.
    + apply Rle_trans with (bpow radix2 (-4)); [apply bpow_le; lia|]. change (bpow radix2 (-4)) with (/ 16). lra.
    + apply Rle_trans with (bpow radix2 0); [change (bpow radix2 0) with 1; lra|apply bpow_le; lia].
Qed.
Lemma far_assert : check_if_node_f64 true 2 f_2_51 f_01 1 f_far = AssertFail.
Proof. vm_compute. reflexivity. Qed.
Theorem node_false : ~ (forall deg o h f x, uniform_grid o h -> (1 <= deg <= max_degree)%Z -> (0 <= f)%Z -> (f + deg <= max_cells)%Z ->
  between o h f (f + deg) x -> exists r, check_if_node_f64 true deg o h f x = Ok r).
Proof.
  intros Q. destruct (knot_ok _ _ grid_01 3) as [K1 K2]; [lia|]. destruct (Q 2%Z f_2_51 f_01 1%Z f_far) as [r F].
  - exact grid_01.
  - unfold max_degree. lia.
  - lia.
  - unfold max_cells. lia.
  - split; [exact K2|]. eexists. eexists. split; [apply is_knot_eq; reflexivity|]. split; [apply is_knot_eq; reflexivity|].
    unfold f_far. rewrite K1. split; [apply (knot_mono _ _ grid_01); lia|apply Rle_refl].
  - rewrite far_assert in F. discriminate.
Qed.
