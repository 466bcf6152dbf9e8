(** The floating-point index rescaling of the uniform search. *)
From Verif Require Import EdgeModel EdgeSpec EdgeProofs EdgeSlice.
From Flocq Require Import Core IEEE754.BinarySingleNaN.
From Coq Require Import Lia Lra ZArith Reals.
Open Scope R_scope.

Lemma fmt_int z k : (Z.abs z < 2 ^ 53)%Z -> (-1074 <= k)%Z ->
  generic_format radix2 (FLT_exp (-1074) 53) (IZR z * bpow radix2 k).
Proof.
  intros H Hk. apply generic_format_FLT. exists (Float radix2 z k); [reflexivity|assumption|assumption].
Qed.

Lemma b64_ok z : (Z.abs z < 2 ^ 53)%Z -> B2R (b64 z) = IZR z /\ is_finite (b64 z) = true.
Proof.
  intros H. unfold b64. pose proof (binary_normalize_correct 53 1024 prec64_gt_0 prec64_lt_emax mode_NE z 0 false) as N.
  cbv zeta in N. assert (F : F2R (Float radix2 z 0) = IZR z) by (unfold F2R; simpl; ring). rewrite F in N.
  change (SpecFloat.fexp 53 1024) with (FLT_exp (-1074) 53) in N.
  rewrite round_generic in N; [|apply valid_rnd_N|].
  2:{ replace (IZR z) with (IZR z * bpow radix2 0) by (simpl; ring). apply fmt_int; [assumption|lia]. }
  rewrite Rlt_bool_true in N; [tauto|].
  rewrite <- abs_IZR. apply (Rlt_trans _ (IZR (2 ^ 53))); [now apply IZR_lt|].
  change (IZR (2 ^ 53)) with (bpow radix2 53). apply bpow_lt. lia.
Qed.

Lemma b64_div_ok x y : B2R y <> 0 -> is_finite x = true ->
  generic_format radix2 (FLT_exp (-1074) 53) (B2R x / B2R y) -> Rabs (B2R x / B2R y) < bpow radix2 1024 ->
  B2R (b64_div x y) = B2R x / B2R y /\ is_finite (b64_div x y) = true.
Proof.
  intros Hy Fx G B. unfold b64_div. pose proof (Bdiv_correct 53 1024 prec64_gt_0 prec64_lt_emax mode_NE x y Hy) as D.
  change (SpecFloat.fexp 53 1024) with (FLT_exp (-1074) 53) in D.
  rewrite round_generic in D; [|apply valid_rnd_N|assumption].
  rewrite Rlt_bool_true in D by assumption. destruct D as [D1 [D2 _]]. rewrite D1, D2. auto.
Qed.

Lemma pow2_bpow k : (0 <= k)%Z -> IZR (2 ^ k) = bpow radix2 k.
Proof. intros H. rewrite <- IZR_Zpower by assumption. reflexivity. Qed.

(** when the ratio of the numbers of cells is a binary fraction the rescaling is exact *)
Theorem rescale_b64_exact v nc nt q k m : (0 < nc < 2 ^ 31)%Z -> (0 < nt < 2 ^ 31)%Z -> (0 <= v < 2 ^ 31)%Z ->
  (0 <= k <= 20)%Z -> (nc * 2 ^ k = q * nt)%Z -> (v * nt = m * nc)%Z ->
  rescale_b64 v nc nt = rescale_exact v nc nt.
Proof.
  intros Hc Ht Hv Hk Hq Hm. rewrite (rescale_exact_spec nc nt v m) by lia.
  assert (K1 : (1 <= 2 ^ k <= 2 ^ 20)%Z) by (split; [apply (Z.pow_le_mono_r 2 0 k); lia|apply Z.pow_le_mono_r; lia]).
  assert (Q : (0 < q < 2 ^ 51)%Z).
  { assert (q * nt < 2 ^ 31 * 2 ^ 20)%Z by nia. change (2 ^ 31 * 2 ^ 20)%Z with (2 ^ 51)%Z in H. nia. }
  assert (M : (0 <= m < 2 ^ 53)%Z).
  { assert (0 <= m)%Z by nia. split; [assumption|]. assert (m * nc < 2 ^ 31 * 2 ^ 31)%Z by nia.
    (* v * nt / nc = v * 2^k * nt / (q nt) = v * 2^k / q *)
    assert (m * q = v * 2 ^ k)%Z by (apply (Z.mul_cancel_r _ _ (nc * nt)); nia).
    assert (v * 2 ^ k < 2 ^ 31 * 2 ^ 20)%Z by nia. change (2 ^ 31 * 2 ^ 20)%Z with (2 ^ 51)%Z in H2. nia. }
  unfold rescale_b64.
  destruct (b64_ok v) as [Rv Fv]; [lia|]. destruct (b64_ok nc) as [Rc Fc]; [lia|]. destruct (b64_ok nt) as [Rt Ft]; [lia|].
  assert (Pt : 0 < IZR nt) by (apply IZR_lt; lia). assert (Pc : 0 < IZR nc) by (apply IZR_lt; lia).
  assert (Pq : 0 < IZR q) by (apply IZR_lt; lia).
  assert (E : IZR nc / IZR nt = IZR q * bpow radix2 (- k)).
  { rewrite bpow_opp. pose proof (bpow_gt_0 radix2 k). apply (Rmult_eq_reg_r (IZR nt * bpow radix2 k)); [|nra].
    replace (IZR nc / IZR nt * (IZR nt * bpow radix2 k)) with (IZR nc * bpow radix2 k) by (field; lra).
    replace (IZR q * / bpow radix2 k * (IZR nt * bpow radix2 k)) with (IZR q * IZR nt) by (field; lra).
    rewrite <- pow2_bpow by lia. rewrite <- !mult_IZR. now rewrite Hq. }
  destruct (b64_div_ok (b64 nc) (b64 nt)) as [R1 F1].
  - rewrite Rt. lra.
  - assumption.
  - rewrite Rc, Rt, E. apply fmt_int; lia.
  - rewrite Rc, Rt, E. rewrite Rabs_right by (apply Rle_ge, Rmult_le_pos; [lra|apply bpow_ge_0]).
    apply (Rle_lt_trans _ (IZR q * 1)).
    + apply Rmult_le_compat_l; [lra|]. change 1 with (bpow radix2 0). apply bpow_le. lia.
    + rewrite Rmult_1_r. apply (Rlt_trans _ (IZR (2 ^ 51))); [apply IZR_lt; lia|].
      rewrite pow2_bpow by lia. apply bpow_lt. lia.
  - rewrite Rc, Rt in R1.
    assert (EV : IZR v / (IZR nc / IZR nt) = IZR m).
    { apply (Rmult_eq_reg_r (IZR nc)); [|lra]. rewrite <- mult_IZR, <- Hm, mult_IZR. field. lra. }
    destruct (b64_div_ok (b64 v) (b64_div (b64 nc) (b64 nt))) as [R2 F2].
    + rewrite R1. apply Rgt_not_eq. apply Rmult_lt_0_compat; [lra|]. now apply Rinv_0_lt_compat.
    + assumption.
    + rewrite Rv, R1, EV. replace (IZR m) with (IZR m * bpow radix2 0) by (simpl; ring). apply fmt_int; lia.
    + rewrite Rv, R1, EV. rewrite Rabs_right by (apply Rle_ge, IZR_le; lia).
      apply (Rlt_trans _ (IZR (2 ^ 53))); [apply IZR_lt; lia|]. rewrite pow2_bpow by lia. apply bpow_lt. lia.
    + rewrite Rv, R1, EV in R2. apply eq_IZR. rewrite Btrunc_correct by reflexivity. rewrite R2.
      apply round_generic; [apply valid_rnd_ZR|]. replace (IZR m) with (IZR m * bpow radix2 0) by (simpl; ring).
      apply generic_format_FIX. exists (Float radix2 m 0); reflexivity.
Qed.

Lemma rescale_b64_wrong : rescale_b64 1 1 93 = 92%Z /\ rescale_b64 32 32 123 = 122%Z /\ rescale_b64 64 64 105 = 104%Z.
Proof. repeat split; vm_compute; reflexivity. Qed.

(** the search as compiled agrees with exact arithmetic when the ratio is a binary fraction *)
Theorem search_binary_ratio agree cur tgt i q k : valid_edge cur -> valid_edge tgt -> in_range cur i ->
  (n_cells cur < 2 ^ 31)%Z -> (n_cells tgt < 2 ^ 31)%Z -> (0 <= k <= 20)%Z ->
  (n_cells cur * 2 ^ k = q * n_cells tgt)%Z ->
  search_uniform rescale_b64 agree cur tgt i = search_uniform rescale_exact agree cur tgt i.
Proof.
  intros V1 V2 Hi B1 B2 Hk Hq. destruct (cells_pos cur V1) as [C1 [F1 E1]]. destruct (cells_pos tgt V2) as [C2 [F2 E2]].
  destruct (gcd_split (n_cells cur) (n_cells tgt) C1 C2) as [G [_ [_ [A1 _]]]].
  unfold search_uniform. rewrite wrap_index_id by assumption. apply in_range_last in Hi as [Hi _]. rewrite !last_back.
  replace (i <=? e_last cur)%Z with true by (symmetry; apply Z.leb_le; lia).
  replace (e_fr cur <=? i)%Z with true by (symmetry; apply Z.leb_le; lia). cbn [check bind].
  replace (Z.gcd (n_cells cur) (n_cells tgt) =? 0)%Z with false by (symmetry; apply Z.eqb_neq; lia).
  replace (n_cells cur / Z.gcd (n_cells cur) (n_cells tgt) =? 0)%Z with false by (symmetry; apply Z.eqb_neq; lia).
  destruct (Z.eqb_spec ((i - e_fr cur) mod (n_cells cur / Z.gcd (n_cells cur) (n_cells tgt))) 0) as [D|D]; [|reflexivity].
  apply match_divides in D as [m Hm]; [|lia|lia].
  rewrite (rescale_b64_exact (i - e_fr cur) (n_cells cur) (n_cells tgt) q k m) by lia. reflexivity.
Qed.

(** 32 cells against 123: the last points of the two edges are not matched *)
Theorem float_rescale_wrong : let e1 := unit_edge 32 false in let e2 := unit_edge 123 false in
  search_uniform rescale_b64 true e1 e2 32 = Ok (Some 122%Z) /\
  search_uniform rescale_exact true e1 e2 32 = Ok (Some 123%Z) /\
  equivalent true e1 e2 32 123 /\ ~ equivalent true e1 e2 32 122.
Proof.
  cbv zeta.
  assert (S : forall r, search_uniform r true (unit_edge 32 false) (unit_edge 123 false) 32 =
    (let* _ := check (0 + r 32 32 123 <=? 123)%Z in let* _ := check (0 <=? 0 + r 32 32 123)%Z in Ok (Some (0 + r 32 32 123)%Z))) by reflexivity.
  split; [rewrite S; vm_compute; reflexivity|]. split; [rewrite S; vm_compute; reflexivity|].
  unfold equivalent, canon. change (e_per (unit_edge 123 false)) with false. cbv iota.
  rewrite !(unit_map 32 123 false false 32) by lia. rewrite !(unit_pt 123) by lia.
  rewrite !INR_IZR_INZ. change (Z.of_nat 32) with 32%Z. change (Z.of_nat 123) with 123%Z. split; lra.
Qed.
