(** The wrapping with floor in binary64. *)
From Coq Require Import Lia Lra ZArith Reals List.
From Flocq Require Import Core IEEE754.BinarySingleNaN.
From Verif Require Import FltSpec FltBase EdgeFloat RstSteps FltLoops FltMain.
Open Scope R_scope.

Lemma p20 : bpow radix2 20 = 1048576. Proof. simpl. lra. Qed.
Lemma pm53 : bpow radix2 (-53) = / 9007199254740992. Proof. reflexivity. Qed.
Lemma pm28 : bpow radix2 (-28) = / 268435456. Proof. reflexivity. Qed.
Lemma le_1000 x : x <= bpow radix2 950 -> x <= bpow radix2 1000.
Proof. intros H. eapply Rle_trans; [exact H|]. apply bpow_le. lia. Qed.
Lemma L_950 L k : L <= bpow radix2 900 -> 0 <= k <= bpow radix2 50 -> 0 <= L -> k * L <= bpow radix2 950.
Proof.
  intros H K P. replace (bpow radix2 950) with (bpow radix2 50 * bpow radix2 900) by (rewrite <- bpow_plus; reflexivity).
  apply Rmult_le_compat; lra.
Qed.
Lemma p50 : bpow radix2 50 = 1125899906842624. Proof. simpl. lra. Qed.
Lemma tiny_le L : bpow radix2 (-900) <= L -> bpow radix2 (-1075) <= bpow radix2 (-53) * L.
Proof.
  intros H. apply Rle_trans with (bpow radix2 (-53) * bpow radix2 (-900)).
  - rewrite <- bpow_plus. apply bpow_le. lia.
  - apply Rmult_le_compat_l; [apply bpow_ge_0|exact H].
Qed.

Theorem wrap_close rmin rmax c : is_num rmin -> is_num rmax -> is_num c -> sane (num (f_length rmin rmax)) ->
  Rabs (num rmin) <= bpow radix2 20 * num (f_length rmin rmax) -> Rabs (num c) <= bpow radix2 20 * num (f_length rmin rmax) ->
  let L := num (f_length rmin rmax) in
  is_num (wrap_f64 rmin rmax c) /\
  same_point L (bpow radix2 (-28) * L) (num (wrap_f64 rmin rmax c)) (num c) /\
  num rmin - bpow radix2 (-28) * L <= num (wrap_f64 rmin rmax c) <= num rmin + L + bpow radix2 (-28) * L.
Proof.
  intros Xm XM Xc [L1 L2] MB CB. cbv zeta. set (len := f_length rmin rmax) in *. set (L := num len) in *.
  assert (LP : 0 < L) by (pose proof (bpow_gt_0 radix2 (-900)); lra).
  rewrite p20 in *. pose proof (tiny_le L L1) as TL. rewrite pm53 in TL.
  assert (Xl : is_num len).
  { destruct (is_finite len) eqn:F; [exact F|]. exfalso. unfold L, num in LP. destruct len; cbn in F, LP; try discriminate; lra. }
  unfold wrap_f64. fold len. destruct (Bltb c rmin || Bltb rmax c)%bool eqn:CND.
  2:{ apply Bool.orb_false_iff in CND as [C1 C2]. apply ltb_false in C1; [|assumption..]. apply ltb_false in C2; [|assumption..].
      split; [exact Xc|]. split.
      - exists 0%Z. replace (num c - (num c + 0 * L)) with 0 by ring. rewrite Rabs_R0, pm28. lra.
      - split; [rewrite pm28; lra|].
        destruct (Rle_or_lt (num rmax - num rmin) L) as [G|G]; [rewrite pm28; lra|].
        assert (B : Rabs (num rmax - num rmin) <= bpow radix2 1000 \/ bpow radix2 1000 < Rabs (num rmax - num rmin)) by lra.
        assert (RL : rnd (num rmax - num rmin) <= bpow radix2 1000 -> L = rnd (num rmax - num rmin)).
        { intros W. pose proof (Bminus_correct 53 1024 prec64_gt_0 prec64_lt_emax mode_NE rmax rmin XM Xm) as D.
          change (SpecFloat.fexp 53 1024) with (FLT_exp (-1074) 53) in D. cbn [round_mode] in D.
          unfold num in W. rewrite Rlt_bool_true in D; [exact (proj1 D)|].
          rewrite Rabs_right.
          - eapply Rle_lt_trans; [exact W|]. apply bpow_lt. lia.
          - apply Rle_ge. rewrite <- (round_0 radix2 (FLT_exp (-1074) 53) (Znearest (fun x => negb (Z.even x)))). apply rnd_le. unfold num in *. lra. }
        destruct B as [B|B].
        + rewrite Rabs_right in B by lra. pose proof (rnd_diff rmax rmin) as E. rewrite <- RL in E.
          * apply Rabs_le_inv in E as [E1 E2]. rewrite Rabs_right in * by lra. rewrite pm53 in *. rewrite pm28. lra.
          * eapply Rle_trans; [apply Rle_abs|]. apply rnd_bound; [lia|]. rewrite Rabs_right; lra.
        + (* the length would be huge *)
          exfalso. rewrite Rabs_right in B by lra.
          pose proof (Bminus_correct 53 1024 prec64_gt_0 prec64_lt_emax mode_NE rmax rmin XM Xm) as D.
          change (SpecFloat.fexp 53 1024) with (FLT_exp (-1074) 53) in D. cbn [round_mode] in D.
          assert (LO : bpow radix2 1000 <= rnd (num rmax - num rmin)).
          { replace (bpow radix2 1000) with (rnd (bpow radix2 1000)).
            - apply rnd_le. lra.
            - apply round_generic; [apply valid_rnd_N|]. apply fmt_bpow. lia. }
          unfold num in LO. destruct (Rlt_bool_spec (Rabs (rnd (B2R rmax - B2R rmin))) (bpow radix2 1024)) as [Q|Q].
          * destruct D as [D _]. change (L = rnd (B2R rmax - B2R rmin)) in D.
            assert (bpow radix2 900 < bpow radix2 1000) by (apply bpow_lt; lia). lra.
          * destruct D as [D _]. unfold len, f_length, f_sub, is_num in Xl. revert Xl D. 
            destruct (Bminus mode_NE rmax rmin); intros Xl D; cbn in Xl; try discriminate; unfold binary_overflow in D; cbn in D; discriminate. }
  destruct (sub_ok c rmin Xc Xm) as [S1 S2].
  { apply le_1000. eapply Rle_trans; [|apply (L_950 L 2097152); [exact L2|rewrite p50; lra|lra]].
    unfold Rminus. eapply Rle_trans; [apply Rabs_triang|]. rewrite Rabs_Ropp. lra. }
  assert (DB : Rabs (num c - num rmin) <= 2097152 * L).
  { unfold Rminus. eapply Rle_trans; [apply Rabs_triang|]. rewrite Rabs_Ropp. lra. }
  pose proof (rnd_diff c rmin) as E1. rewrite <- S1, pm53 in E1. set (d := f_sub c rmin) in *.
  assert (E1' : Rabs (num d - (num c - num rmin)) <= / 4294967296 * L).
  { eapply Rle_trans; [exact E1|]. lra. }
  assert (DB' : Rabs (num d) <= 2097153 * L).
  { replace (num d) with ((num d - (num c - num rmin)) + (num c - num rmin)) by ring. eapply Rle_trans; [apply Rabs_triang|]. lra. }
  assert (QB : Rabs (num d / L) <= 2097153).
  { unfold Rdiv. rewrite Rabs_mult, (Rabs_right (/ L)) by (apply Rle_ge, Rlt_le, Rinv_0_lt_compat, LP).
    apply Rmult_le_reg_r with L; [exact LP|]. rewrite Rmult_assoc, Rinv_l by lra. lra. }
  destruct (div_ok d len S2) as [Q1 Q2]; [change (num len) with L; lra| |].
  { change (num len) with L. eapply Rle_trans; [exact QB|]. apply Rle_trans with (bpow radix2 50); [rewrite p50; lra|]. apply bpow_le. lia. }
  change (num len) with L in Q1. set (q := b64_div d len) in *.
  assert (E2 : Rabs (num q - num d / L) <= / 2147483648).
  { rewrite Q1. eapply Rle_trans; [apply rnd_any|]. rewrite pm53.
    assert (bpow radix2 (-1075) <= bpow radix2 (-53)) by (apply bpow_le; lia). rewrite pm53 in H. lra. }
  destruct (floor_ok q Q2) as [F1 F2]. set (n := Zfloor (num q)) in *. set (fl := f_floor q) in *.
  pose proof (Zfloor_lb (num q)) as N1. pose proof (Zfloor_ub (num q)) as N2. fold n in N1, N2.
  (* num q * L is close to d *)
  assert (QL : Rabs (num q * L - num d) <= / 2147483648 * L).
  { replace (num q * L - num d) with ((num q - num d / L) * L) by (field; lra). rewrite Rabs_mult, (Rabs_right L) by lra.
    apply Rmult_le_compat_r; [lra|exact E2]. }
  assert (NL : Rabs (IZR n * L) <= 2097155 * L).
  { apply Rabs_le_inv in QL as [? ?]. apply Rabs_le_inv in DB' as [? ?].
    assert (IZR n * L <= num q * L) by (apply Rmult_le_compat_r; lra).
    assert (num q * L <= (IZR n + 1) * L) by (apply Rmult_le_compat_r; lra). apply Rabs_le. lra. }
  destruct (mul_ok fl len F2 Xl) as [M1 M2].
  { rewrite F1. change (num len) with L. apply le_1000. eapply Rle_trans; [exact NL|]. apply L_950; [exact L2|rewrite p50; lra|lra]. }
  rewrite F1 in M1. change (num len) with L in M1. set (p := f_mul fl len) in *.
  assert (E3 : Rabs (num p - IZR n * L) <= / 2147483648 * L).
  { rewrite M1. eapply Rle_trans; [apply rnd_any|]. rewrite pm53. lra. }
  assert (PB : Rabs (num c - num p) <= 4194304 * L).
  { unfold Rminus. eapply Rle_trans; [apply Rabs_triang|]. rewrite Rabs_Ropp.
    assert (Rabs (num p) <= 2097156 * L); [|lra].
    replace (num p) with ((num p - IZR n * L) + IZR n * L) by ring. eapply Rle_trans; [apply Rabs_triang|]. lra. }
  destruct (sub_ok c p Xc M2) as [R1 R2].
  { apply le_1000. eapply Rle_trans; [exact PB|]. apply L_950; [exact L2|rewrite p50; lra|lra]. }
  pose proof (rnd_diff c p) as E4. rewrite <- R1, pm53 in E4. set (r := f_sub c p) in *.
  apply Rabs_le_inv in E1' as [A1 A2]. apply Rabs_le_inv in QL as [B1 B2]. apply Rabs_le_inv in E3 as [C1 C2].
  assert (E4' : Rabs (num r - (num c - num p)) <= / 2147483648 * L) by lra. apply Rabs_le_inv in E4' as [G1 G2].
  assert (H1 : IZR n * L <= num q * L) by (apply Rmult_le_compat_r; lra).
  assert (H2 : num q * L <= (IZR n + 1) * L) by (apply Rmult_le_compat_r; lra).
  split; [exact R2|]. rewrite pm28. split.
  - exists (- n)%Z. rewrite opp_IZR. apply Rabs_le. lra.
  - lra.
Qed.

(** a period which is a power of two, a domain which starts at 0: the quotient and the multiple are exact *)
Lemma scale_fmt x e : is_num x -> num x = 0 \/ bpow radix2 (-900) <= Rabs (num x) -> (-900 <= e <= 50)%Z -> fmt (num x * bpow radix2 (- e)).
Proof.
  intros X [Z|B] E.
  - rewrite Z, Rmult_0_l. apply generic_format_0.
  - pose proof (num_fmt x) as G. apply FLT_format_generic in G; [|reflexivity]. destruct G as [[mm ex] E1 E2 E3].
    cbn in E1, E2, E3. unfold F2R in E1. cbn [Fnum Fexp] in E1.
    assert (EX : (-953 <= ex)%Z).
    { destruct (Z.le_gt_cases (-953) ex) as [H|H]; [exact H|]. exfalso.
      assert (Rabs (num x) < bpow radix2 (-900)); [|lra]. rewrite E1, Rabs_mult, (Rabs_right (bpow radix2 ex)) by (apply Rle_ge, bpow_ge_0).
      rewrite <- abs_IZR. apply Rlt_le_trans with (bpow radix2 53 * bpow radix2 ex).
      - apply Rmult_lt_compat_r; [apply bpow_gt_0|]. rewrite <- pow2_bpow by lia. now apply IZR_lt.
      - rewrite <- bpow_plus. apply bpow_le. lia. }
    rewrite E1, Rmult_assoc, <- bpow_plus. apply fmt_int; [exact E2|lia].
Qed.
Theorem wrap_power_of_two rmin rmax c e : is_num rmin -> is_num rmax -> is_num c -> num rmin = 0 -> num rmax = bpow radix2 e -> (-900 <= e <= 50)%Z ->
  num c = 0 \/ bpow radix2 (-900) <= Rabs (num c) -> Rabs (num c) <= bpow radix2 52 * num rmax ->
  let r := wrap_f64 rmin rmax c in
  is_num r /\ 0 <= num r <= num rmax /\
  exists k : Z, 0 <= num c + IZR k * num rmax <= num rmax /\ num r = rnd (num c + IZR k * num rmax).
Proof.
  intros Xm XM Xc Z EM HE CT CB. cbv zeta. set (L := num rmax) in *.
  assert (LP : 0 < L) by (rewrite EM; apply bpow_gt_0).
  assert (L2 : L <= bpow radix2 50) by (rewrite EM; apply bpow_le; lia).
  assert (LU : L <= bpow radix2 900) by (eapply Rle_trans; [exact L2|apply bpow_le; lia]).
  unfold wrap_f64. destruct (Bltb c rmin || Bltb rmax c)%bool eqn:CND.
  2:{ apply Bool.orb_false_iff in CND as [C1 C2]. apply ltb_false in C1; [|assumption..]. apply ltb_false in C2; [|assumption..].
      rewrite Z in C1. split; [exact Xc|]. split; [split; [exact C1|exact C2]|]. exists 0%Z. rewrite Rmult_0_l, Rplus_0_r, rnd_num. split; [|reflexivity]. split; [exact C1|exact C2]. }
  destruct (sub_ok rmax rmin XM Xm) as [Q1 Q2].
  { rewrite Z, Rminus_0_r, Rabs_right by (fold L; lra). eapply Rle_trans; [exact LU|apply bpow_le; lia]. }
  rewrite Z, Rminus_0_r, rnd_num in Q1. fold (f_length rmin rmax) in Q1, Q2. set (len := f_length rmin rmax) in *. change (num len = L) in Q1.
  assert (P52 : bpow radix2 52 = 4503599627370496) by (simpl; lra).
  assert (CB2 : Rabs (num c) <= bpow radix2 1000).
  { eapply Rle_trans; [exact CB|]. eapply Rle_trans; [apply Rmult_le_compat_l; [apply bpow_ge_0|exact L2]|]. rewrite <- bpow_plus. apply bpow_le. lia. }
  destruct (sub_ok c rmin Xc Xm) as [D1 D2]; [rewrite Z, Rminus_0_r; exact CB2|]. rewrite Z, Rminus_0_r, rnd_num in D1. set (d := f_sub c rmin) in *.
  assert (QV : num d / num len = num c * bpow radix2 (- e)).
  { rewrite D1, Q1, EM, bpow_opp. reflexivity. }
  assert (QB : Rabs (num c * bpow radix2 (- e)) <= bpow radix2 52).
  { rewrite Rabs_mult, (Rabs_right (bpow radix2 (- e))) by (apply Rle_ge, bpow_ge_0). rewrite bpow_opp, <- EM.
    apply Rmult_le_reg_r with L; [exact LP|]. rewrite Rmult_assoc, Rinv_l by lra. lra. }
  destruct (div_ok d len D2) as [V1 V2]; [rewrite Q1; lra| |].
  { rewrite QV. eapply Rle_trans; [exact QB|apply bpow_le; lia]. }
  rewrite QV in V1. rewrite round_generic in V1; [|apply valid_rnd_N|apply scale_fmt; [exact Xc|exact CT|exact HE]].
  set (q := b64_div d len) in *. destruct (floor_ok q V2) as [F1 F2]. set (fl := f_floor q) in *. set (n := Zfloor (num q)) in *.
  pose proof (Zfloor_lb (num q)) as N1. pose proof (Zfloor_ub (num q)) as N2. fold n in N1, N2.
  assert (QL : num q * L = num c).
  { rewrite V1, EM, Rmult_assoc, <- bpow_plus. replace (- e + e)%Z with 0%Z by lia. simpl. ring. }
  assert (NB : (Z.abs n < 2 ^ 53)%Z).
  { rewrite <- V1 in QB. apply Rabs_le_inv in QB as [G1 G2]. rewrite P52 in G1, G2.
    assert (A1 : (-4503599627370496 < n + 1)%Z) by (apply lt_IZR; rewrite plus_IZR; lra).
    assert (A2 : (n <= 4503599627370496)%Z) by (apply le_IZR; lra). lia. }
  assert (MB : Rabs (IZR n * L) <= bpow radix2 1000).
  { rewrite Rabs_mult, (Rabs_right L) by lra. rewrite <- abs_IZR. apply Rle_trans with (bpow radix2 53 * bpow radix2 50).
    - apply Rmult_le_compat; [apply IZR_le; lia|lra| |exact L2]. rewrite <- pow2_bpow by lia. apply IZR_le. lia.
    - rewrite <- bpow_plus. apply bpow_le. lia. }
  destruct (mul_ok fl len F2 Q2) as [M1 M2]; [rewrite F1, Q1; exact MB|].
  rewrite F1, Q1, EM, round_generic in M1; [|apply valid_rnd_N|apply fmt_int; [exact NB|lia]]. rewrite <- EM in M1. set (p := f_mul fl len) in *.
  assert (H1 : IZR n * L <= num c) by (rewrite <- QL; apply Rmult_le_compat_r; lra).
  assert (H2 : num c <= (IZR n + 1) * L) by (rewrite <- QL; apply Rmult_le_compat_r; lra).
  destruct (sub_ok c p Xc M2) as [R1 R2].
  { rewrite M1. rewrite Rabs_right by lra. apply Rle_trans with L; [lra|]. eapply Rle_trans; [exact LU|apply bpow_le; lia]. }
  rewrite M1 in R1. split; [exact R2|]. split.
  - rewrite R1. split.
    + rewrite <- (round_0 radix2 (FLT_exp (-1074) 53) (Znearest (fun x => negb (Z.even x)))). apply rnd_le. lra.
    + unfold L at 2. rewrite <- (rnd_num rmax). apply rnd_le. fold L. lra.
  - exists (- n)%Z. rewrite opp_IZR. split; [lra|]. rewrite R1. f_equal. ring.
Qed.

(** ** Counterexample: the period 1.1 and the coordinate 7.7 *)
Definition f_11 : F64 := f_lit 4953959590107546 (-52).
Definition f_77 : F64 := f_lit 8669429282688205 (-50).
Theorem wrap_below : is_num (wrap_f64 (b64 0) f_11 f_77) /\ num (wrap_f64 (b64 0) f_11 f_77) = IZR (-8) * bpow radix2 (-53).
Proof.
  assert (E : wrap_f64 (b64 0) f_11 f_77 = f_lit (-8) (-53)) by (apply B2SF_inj; vm_compute; reflexivity).
  rewrite E. destruct (lit_ok (-8) (-53)) as [V F]; [lia..|]. split; [exact F|exact V].
Qed.
Theorem wrap_range_false : ~ (forall rmin rmax c, is_num rmin -> is_num rmax -> is_num c -> num rmin < num rmax ->
  num rmin <= num c <= num rmin + 8 * (num rmax - num rmin) -> num rmin <= num (wrap_f64 rmin rmax c)).
Proof.
  intros H. destruct wrap_below as [_ B]. destruct (b64_ok 0) as [O1 O2]; [lia|]. change (num (b64 0) = 0) in O1.
  destruct (lit_ok 4953959590107546 (-52)) as [U1 U2]; [lia..|]. destruct (lit_ok 8669429282688205 (-50)) as [V1 V2]; [lia..|].
  fold f_11 in U1, U2. fold f_77 in V1, V2. specialize (H (b64 0) f_11 f_77 O2 U2 V2). rewrite O1, U1, V1, B in H.
  replace (bpow radix2 (-52)) with (/ 4503599627370496) in H by reflexivity. replace (bpow radix2 (-50)) with (/ 1125899906842624) in H by reflexivity.
  replace (bpow radix2 (-53)) with (/ 9007199254740992) in H by reflexivity. specialize (H ltac:(lra) ltac:(lra)). lra.
Qed.

(** ** Examples *)
Lemma ex_wrap : is_num (b64 0) /\ is_num (b64 1) /\ num (b64 1) = bpow radix2 0 /\ is_num (f_lit (-7) (-2)) /\
  wrap_f64 (b64 0) (b64 1) (f_lit (-7) (-2)) = f_lit 1 (-2).
Proof.
  destruct (b64_ok 1) as [O1 O2]; [lia|]. repeat split; [exact O1|]. apply B2SF_inj. vm_compute. reflexivity.
Qed.
Lemma ex_wrap_close : sane (num (f_length (b64 (-1)) (b64 2))) /\ Rabs (num (b64 (-1))) <= bpow radix2 20 * num (f_length (b64 (-1)) (b64 2)) /\
  wrap_f64 (b64 (-1)) (b64 2) (b64 12) = b64 0.
Proof.
  assert (E : f_length (b64 (-1)) (b64 2) = b64 3) by (apply B2SF_inj; vm_compute; reflexivity). rewrite E.
  destruct (b64_ok 3) as [O1 O2]; [lia|]. change (num (b64 3) = 3) in O1. destruct (b64_ok (-1)) as [P1 P2]; [lia|]. change (num (b64 (-1)) = -1) in P1.
  rewrite O1, P1. split; [|split].
  - unfold sane. split; [apply Rle_trans with (bpow radix2 0); [apply bpow_le; lia|simpl; lra]|apply Rle_trans with (bpow radix2 2); [simpl; lra|apply bpow_le; lia]].
  - rewrite p20. rewrite Rabs_left; lra.
  - apply B2SF_inj. vm_compute. reflexivity.
Qed.
