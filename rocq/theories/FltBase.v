(** Facts about the binary64 operations. *)
From Coq Require Import Lia Lra ZArith Reals List.
From Flocq Require Import Core IEEE754.BinarySingleNaN.
From Flocq Require Import Plus_error Relative.
From Verif Require Import FltSpec EdgeFloat RstSteps.
Open Scope R_scope.

Notation rnd := (round radix2 (FLT_exp (-1074) 53) (Znearest (fun x => negb (Z.even x)))).
Notation fmt := (generic_format radix2 (FLT_exp (-1074) 53)).

Lemma valid_flt : Valid_exp (FLT_exp (-1074) 53).
Proof. apply FLT_exp_valid. reflexivity. Qed.
Lemma num_fmt x : fmt (num x).
Proof. unfold num. pose proof (generic_format_B2R 53 1024 x) as G. exact G. Qed.
Lemma rnd_num x : rnd (num x) = num x.
Proof. apply round_generic; [apply valid_rnd_N|apply num_fmt]. Qed.
Lemma rnd_le a b : a <= b -> rnd a <= rnd b.
Proof. intros H. apply round_le; [exact valid_flt|apply valid_rnd_N|exact H]. Qed.
Lemma fmt_bpow e : (-1074 <= e)%Z -> fmt (bpow radix2 e).
Proof.
  intros H. apply generic_format_FLT_bpow; [reflexivity|exact H].
Qed.
Lemma u_val : u_ro radix2 53 = bpow radix2 (-53).
Proof. unfold u_ro. replace (/ 2) with (bpow radix2 (-1)) by (simpl; lra). rewrite <- bpow_plus. f_equal. Qed.
Lemma rnd_sum x y : Rabs (rnd (num x + num y) - (num x + num y)) <= bpow radix2 (-53) * Rabs (num x + num y).
Proof.
  assert (PG : Prec_gt_0 53) by reflexivity.
  destruct (FLT_plus_error_N_ex radix2 (-1074) 53 (fun x => negb (Z.even x)) (num x) (num y) (num_fmt x) (num_fmt y)) as (e & E1 & E2).
  rewrite E2. replace ((num x + num y) * (1 + e) - (num x + num y)) with (e * (num x + num y)) by ring.
  rewrite Rabs_mult. apply Rmult_le_compat_r; [apply Rabs_pos|]. eapply Rle_trans; [exact E1|].
  rewrite u_val. pose proof (bpow_gt_0 radix2 (-53)) as P. apply Rmult_le_reg_r with (1 + bpow radix2 (-53)); [lra|].
  unfold Rdiv. rewrite Rmult_assoc, Rinv_l by lra. nra.
Qed.
Lemma rnd_any z : Rabs (rnd z - z) <= bpow radix2 (-53) * Rabs z + bpow radix2 (-1075).
Proof.
  destruct (relative_error_N_FLT'_ex radix2 (-1074) 53 eq_refl (fun x => negb (Z.even x)) z) as (e & t & E1 & T & _ & E2).
  rewrite E2. replace (z * (1 + e) + t - z) with (e * z + t) by ring.
  eapply Rle_trans; [apply Rabs_triang|]. apply Rplus_le_compat.
  - rewrite Rabs_mult. apply Rmult_le_compat_r; [apply Rabs_pos|]. eapply Rle_trans; [exact E1|].
    rewrite u_val. pose proof (bpow_gt_0 radix2 (-53)) as P. apply Rmult_le_reg_r with (1 + bpow radix2 (-53)); [lra|].
    unfold Rdiv. rewrite Rmult_assoc, Rinv_l by lra. nra.
  - eapply Rle_trans; [exact T|]. replace (/ 2) with (bpow radix2 (-1)) by (simpl; lra). rewrite <- bpow_plus. apply Req_le. f_equal.
Qed.
Lemma rnd_bound z e : (-1074 <= e)%Z -> Rabs z <= bpow radix2 e -> Rabs (rnd z) <= bpow radix2 e.
Proof.
  intros H B. apply abs_round_le_generic; [exact valid_flt|apply valid_rnd_N|now apply fmt_bpow|exact B].
Qed.
Lemma no_overflow z : Rabs z <= bpow radix2 1000 -> Rlt_bool (Rabs (rnd z)) (bpow radix2 1024) = true.
Proof.
  intros H. apply Rlt_bool_true. apply Rle_lt_trans with (bpow radix2 1000); [now apply rnd_bound|]. apply bpow_lt. lia.
Qed.

Lemma add_ok x y : is_num x -> is_num y -> Rabs (num x + num y) <= bpow radix2 1000 ->
  num (f_add x y) = rnd (num x + num y) /\ is_num (f_add x y).
Proof.
  intros X Y B. pose proof (Bplus_correct 53 1024 prec64_gt_0 prec64_lt_emax mode_NE x y X Y) as D.
  change (SpecFloat.fexp 53 1024) with (FLT_exp (-1074) 53) in D. cbn [round_mode] in D.
  pose proof (no_overflow _ B) as O. unfold num in O. rewrite O in D. destruct D as [D1 [D2 _]]. exact (conj D1 D2).
Qed.
Lemma sub_ok x y : is_num x -> is_num y -> Rabs (num x - num y) <= bpow radix2 1000 ->
  num (f_sub x y) = rnd (num x - num y) /\ is_num (f_sub x y).
Proof.
  intros X Y B. pose proof (Bminus_correct 53 1024 prec64_gt_0 prec64_lt_emax mode_NE x y X Y) as D.
  change (SpecFloat.fexp 53 1024) with (FLT_exp (-1074) 53) in D. cbn [round_mode] in D.
  pose proof (no_overflow _ B) as O. unfold num in O. rewrite O in D. destruct D as [D1 [D2 _]]. exact (conj D1 D2).
Qed.
Lemma rnd_diff x y : Rabs (rnd (num x - num y) - (num x - num y)) <= bpow radix2 (-53) * Rabs (num x - num y).
Proof.
  pose proof (rnd_sum x (Bopp y)) as H. unfold num in *. rewrite B2R_Bopp in H. exact H.
Qed.
Lemma mul_ok x y : is_num x -> is_num y -> Rabs (num x * num y) <= bpow radix2 1000 ->
  num (f_mul x y) = rnd (num x * num y) /\ is_num (f_mul x y).
Proof.
  intros X Y B. pose proof (Bmult_correct 53 1024 prec64_gt_0 prec64_lt_emax mode_NE x y) as D.
  change (SpecFloat.fexp 53 1024) with (FLT_exp (-1074) 53) in D. cbn [round_mode] in D.
  pose proof (no_overflow _ B) as O. unfold num in O. rewrite O in D. destruct D as [D1 [D2 _]].
  unfold is_num in *. rewrite X, Y in D2. exact (conj D1 D2).
Qed.
Lemma div_ok x y : is_num x -> num y <> 0 -> Rabs (num x / num y) <= bpow radix2 1000 ->
  num (b64_div x y) = rnd (num x / num y) /\ is_num (b64_div x y).
Proof.
  intros X Y B. pose proof (Bdiv_correct 53 1024 prec64_gt_0 prec64_lt_emax mode_NE x y Y) as D.
  change (SpecFloat.fexp 53 1024) with (FLT_exp (-1074) 53) in D. cbn [round_mode] in D.
  pose proof (no_overflow _ B) as O. unfold num in O. rewrite O in D. destruct D as [D1 [D2 _]].
  unfold is_num in *. rewrite X in D2. exact (conj D1 D2).
Qed.
Lemma floor_ok x : is_num x -> num (f_floor x) = IZR (Zfloor (num x)) /\ is_num (f_floor x).
Proof.
  intros X. destruct (Bnearbyint_correct 53 1024 prec64_lt_emax mode_DN x) as [D1 [D2 _]]. split.
  - change (num (f_floor x) = round radix2 (FIX_exp 0) Zfloor (num x)) in D1. rewrite D1.
    unfold round, F2R, scaled_mantissa, cexp, FIX_exp. simpl. now rewrite !Rmult_1_r.
  - unfold is_num in *. now rewrite X in D2.
Qed.
Lemma abs_ok x : is_num x -> num (f_abs x) = Rabs (num x) /\ is_num (f_abs x).
Proof.
  intros X. split; [apply B2R_Babs|]. unfold is_num, f_abs in *. rewrite is_finite_Babs. exact X.
Qed.
Lemma ltb_num x y : is_num x -> is_num y -> Bltb x y = true <-> num x < num y.
Proof.
  intros X Y. rewrite Bltb_correct by assumption. unfold num. destruct (Rlt_bool_spec (B2R x) (B2R y)) as [H|H]; split; intros; auto; [discriminate|lra].
Qed.
Lemma leb_num x y : is_num x -> is_num y -> Bleb x y = true <-> num x <= num y.
Proof.
  intros X Y. rewrite Bleb_correct by assumption. unfold num. destruct (Rle_bool_spec (B2R x) (B2R y)) as [H|H]; split; intros; auto; [discriminate|lra].
Qed.
Lemma ltb_false x y : is_num x -> is_num y -> Bltb x y = false <-> num y <= num x.
Proof.
  intros X Y. destruct (Bltb x y) eqn:E; split; intros H; try discriminate; try reflexivity.
  - apply (ltb_num x y X Y) in E. lra.
  - destruct (Rle_or_lt (num y) (num x)) as [L|L]; [exact L|]. apply (ltb_num x y X Y) in L. congruence.
Qed.
Lemma leb_false x y : is_num x -> is_num y -> Bleb x y = false <-> num y < num x.
Proof.
  intros X Y. destruct (Bleb x y) eqn:E; split; intros H; try discriminate; try reflexivity.
  - apply (leb_num x y X Y) in E. lra.
  - destruct (Rle_or_lt (num x) (num y)) as [L|L]; [|exact L]. apply (leb_num x y X Y) in L. congruence.
Qed.
Lemma lit_ok m e : (Z.abs m < 2 ^ 53)%Z -> (-1074 <= e <= 900)%Z ->
  num (f_lit m e) = IZR m * bpow radix2 e /\ is_num (f_lit m e).
Proof.
  intros M E. pose proof (binary_normalize_correct 53 1024 prec64_gt_0 prec64_lt_emax mode_NE m e false) as N.
  cbv zeta in N. change (SpecFloat.fexp 53 1024) with (FLT_exp (-1074) 53) in N. unfold F2R in N. cbn [Fnum Fexp round_mode] in N.
  rewrite round_generic in N; [|apply valid_rnd_N|apply fmt_int; lia].
  rewrite Rlt_bool_true in N.
  - destruct N as [N1 [N2 _]]. exact (conj N1 N2).
  - rewrite Rabs_mult, (Rabs_right (bpow radix2 e)) by (apply Rle_ge, bpow_ge_0). rewrite <- abs_IZR.
    apply Rlt_trans with (bpow radix2 53 * bpow radix2 e).
    + apply Rmult_lt_compat_r; [apply bpow_gt_0|]. rewrite <- pow2_bpow by lia. now apply IZR_lt.
    + rewrite <- bpow_plus. apply bpow_lt. lia.
Qed.
