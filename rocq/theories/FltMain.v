(** restrict_to_idx_range in binary64: main theorems and counterexamples. *)
From Coq Require Import Lia Lra ZArith Reals List.
From Flocq Require Import Core IEEE754.BinarySingleNaN.
From Verif Require Import FltSpec FltBase EdgeFloat RstSteps FltLoops.
Open Scope R_scope.

Lemma ten_L len : is_num len -> 0 < num len -> num len <= bpow radix2 900 ->
  num (f_mul (b64 10) len) = rnd (10 * num len) /\ is_num (f_mul (b64 10) len) /\ rnd (10 * num len) <= 16 * num len.
Proof.
  intros Xl LP LB. destruct (b64_ok 10) as [T1 T2]; [lia|]. change (num (b64 10) = 10) in T1.
  assert (B : 10 * num len <= bpow radix2 1000).
  { apply Rle_trans with (bpow radix2 4 * bpow radix2 900).
    - replace (bpow radix2 4) with 16 by (simpl; lra). pose proof (bpow_gt_0 radix2 900). nra.
    - rewrite <- bpow_plus. apply bpow_le. lia. }
  destruct (mul_ok (b64 10) len T2 Xl) as [P1 P2]; [rewrite T1, Rabs_right by lra; exact B|].
  rewrite T1 in P1. split; [exact P1|]. split; [exact P2|].
  apply Rle_trans with (rnd (num len * bpow radix2 4)).
  - apply rnd_le. replace (bpow radix2 4) with 16 by (simpl; lra). lra.
  - apply Req_le. replace (bpow radix2 4) with 16 by (simpl; lra). rewrite (Rmult_comm 16). apply round_generic; [apply valid_rnd_N|].
    replace (num len * 16) with (num len * bpow radix2 4) by (simpl; lra).
    pose proof (num_fmt len) as G. apply generic_format_FLT. apply FLT_format_generic in G; [|reflexivity]. destruct G as [[mm e] E1 E2 E3].
    exists (Float radix2 mm (e + 4)); cbn in E1, E2, E3; cbn [Fnum Fexp]; [|exact E2|lia].
    rewrite E1. unfold F2R. cbn [Fnum Fexp]. rewrite (bpow_plus radix2 e 4). replace (bpow radix2 4) with 16 by (simpl; lra). ring.
Qed.

Theorem restrict_range far x_min len coord : is_num x_min -> is_num len -> is_num coord ->
  0 < num len <= bpow radix2 900 -> Rabs (num x_min) <= bpow radix2 20 * num len -> Rabs (num coord) <= bpow radix2 900 ->
  num (f_add x_min len) = num x_min + num len ->
  (10 * num len < Rabs (num coord - num x_min) ->
     is_num (far (f_sub coord x_min) len) /\ Rabs (num (far (f_sub coord x_min) len)) <= 10 * num len) ->
  exists r, (forall fuel, (38 <= fuel)%nat -> restrict_f64 far fuel x_min len coord = Some r) /\
    is_num r /\ num x_min <= num r < num x_min + num len /\
    (Rabs (num coord - num x_min) <= 10 * num len ->
       same_point (num len) (bpow radix2 (-40) * (Rabs (num x_min) + num len)) (num r) (num coord)).
Proof.
  intros Xm Xl Xc [LP LB] MB CB EX FAR.
  assert (DB : Rabs (num coord - num x_min) <= bpow radix2 1000).
  { unfold Rminus. eapply Rle_trans; [apply Rabs_triang|]. rewrite Rabs_Ropp.
    apply Rle_trans with (bpow radix2 900 + bpow radix2 20 * bpow radix2 900).
    - apply Rplus_le_compat; [exact CB|]. eapply Rle_trans; [exact MB|]. apply Rmult_le_compat_l; [apply bpow_ge_0|exact LB].
    - apply Rle_trans with (bpow radix2 21 * bpow radix2 900).
      + replace (bpow radix2 21) with (2 * bpow radix2 20) by (simpl; lra). pose proof (bpow_gt_0 radix2 900).
        assert (1 <= bpow radix2 20) by (simpl; lra). nra.
      + rewrite <- bpow_plus. apply bpow_le. lia. }
  destruct (sub_ok coord x_min Xc Xm DB) as [S1 S2]. pose proof (rnd_diff coord x_min) as RD. rewrite <- S1 in RD.
  destruct (ten_L len Xl LP LB) as (T1 & T2 & T3). destruct (abs_ok (f_sub coord x_min) S2) as [A1 A2].
  assert (XM : is_num (f_add x_min len)).
  { apply add_ok; try assumption. rewrite <- EX. apply Rabs_le_inv in MB as [M1 M2].
    rewrite EX. apply (big_bound (num len) (num x_min)); try assumption; [apply Rabs_le; lra|].
    eapply Rle_trans; [apply Rabs_triang|]. rewrite (Rabs_right (num len)) by lra. lra. }
  pose (c0 := if Bltb (f_mul (b64 10) len) (f_abs (f_sub coord x_min)) then far (f_sub coord x_min) len else f_sub coord x_min).
  assert (C0 : is_num c0 /\ Rabs (num c0) <= 16 * num len /\ (Rabs (num coord - num x_min) <= 10 * num len -> c0 = f_sub coord x_min)).
  { unfold c0. destruct (Bltb (f_mul (b64 10) len) (f_abs (f_sub coord x_min))) eqn:E.
    - assert (W : 10 * num len < Rabs (num coord - num x_min)).
      { apply ltb_num in E; [|assumption..]. rewrite T1, A1, S1 in E.
        destruct (Rle_or_lt (Rabs (num coord - num x_min)) (10 * num len)) as [N|N]; [|exact N].
        exfalso. apply (Rle_not_lt _ _ (rnd_le _ _ N)). eapply Rlt_le_trans; [exact E|].
        apply Req_le. apply Rabs_le_inv in N as [N1 N2]. unfold Rabs. destruct (Rcase_abs (rnd (num coord - num x_min))) as [Z|Z]; destruct (Rcase_abs (num coord - num x_min)) as [Z'|Z'].
        + now rewrite <- round_NE_opp.
        + exfalso. assert (0 <= rnd (num coord - num x_min)); [|lra]. rewrite <- (round_0 radix2 (FLT_exp (-1074) 53) (Znearest (fun x => negb (Z.even x)))). apply rnd_le. lra.
        + assert (rnd (num coord - num x_min) <= 0) by (rewrite <- (round_0 radix2 (FLT_exp (-1074) 53) (Znearest (fun x => negb (Z.even x)))); apply rnd_le; lra).
          rewrite round_NE_opp. lra.
        + reflexivity. }
      destruct (FAR W) as [F1 F2]. split; [exact F1|]. split; [lra|]. intros N. lra.
    - apply ltb_false in E; [|assumption..]. rewrite T1, A1 in E. split; [exact S2|]. split; [lra|reflexivity]. }
  destruct C0 as (C1 & C2 & C3).
  destruct (loops_ok x_min len Xm Xl LP LB MB (f_add x_min len) c0 38 XM EX C1 C2 (le_n _)) as (r & R0 & R1 & R2 & _).
  assert (ALL : forall fuel, (38 <= fuel)%nat -> restrict_f64 far fuel x_min len coord = Some r /\
     exists k, Rabs (num r - (num c0 + num x_min + IZR k * num len)) <= 77 * (bpow radix2 (-53) * (Rabs (num x_min) + 20 * num len))).
  { intros fuel F. destruct (loops_ok x_min len Xm Xl LP LB MB (f_add x_min len) c0 fuel XM EX C1 C2 F) as (r' & Q0 & Q1 & Q2 & Q3).
    assert (R' : r' = r).
    { clear - R0 Q0 F. revert R0 Q0. generalize (f_add c0 x_min) as c. intros c.
      assert (UP : forall f c v, loop_up f x_min len c = Some v -> forall g, (f <= g)%nat -> loop_up g x_min len c = Some v).
      { clear. induction f as [|f IH]; intros c v H g Hg; destruct g as [|g]; cbn [loop_up] in *; destruct (Bltb c x_min); try discriminate; auto; [lia|].
        apply IH; [exact H|lia]. }
      assert (DN : forall f xm c v, loop_down f xm len c = Some v -> forall g, (f <= g)%nat -> loop_down g xm len c = Some v).
      { clear. induction f as [|f IH]; intros xm c v H g Hg; destruct g as [|g]; cbn [loop_down] in *; destruct (Bleb xm c); try discriminate; auto; [lia|].
        apply IH; [exact H|lia]. }
      destruct (loop_up 38 x_min len c) as [v|] eqn:E; [|discriminate]. rewrite (UP _ _ _ E fuel F).
      intros D1 D2. rewrite (DN _ _ _ _ D1 fuel F) in D2. congruence. }
    subst r'. split; [|exact Q3]. unfold restrict_f64. fold c0. exact Q0. }
  exists r. split; [intros fuel F; apply (ALL fuel F)|]. split; [exact R1|]. split; [exact R2|].
  intros N. destruct (ALL 38%nat (le_n _)) as (_ & k & K). exists k. rewrite (C3 N) in K.
  replace (num r - (num coord + IZR k * num len)) with
    ((num r - (num (f_sub coord x_min) + num x_min + IZR k * num len)) + (num (f_sub coord x_min) - (num coord - num x_min))) by ring.
  eapply Rle_trans; [apply Rabs_triang|].
  apply Rle_trans with (77 * (bpow radix2 (-53) * (Rabs (num x_min) + 20 * num len)) + bpow radix2 (-53) * (10 * num len)).
  - apply Rplus_le_compat; [exact K|]. eapply Rle_trans; [exact RD|]. apply Rmult_le_compat_l; [apply bpow_ge_0|exact N].
  - replace (bpow radix2 (-40)) with (8192 * bpow radix2 (-53)).
    2:{ replace 8192 with (bpow radix2 13) by (simpl; lra). rewrite <- bpow_plus. reflexivity. }
    pose proof (bpow_ge_0 radix2 (-53)). pose proof (Rabs_pos (num x_min)). nra.
Qed.

Theorem restrict_inside far x_min len coord fuel : is_num x_min -> is_num len -> is_num coord ->
  num x_min = 0 -> 0 < num len <= bpow radix2 900 -> 0 <= num coord < num len ->
  exists r, restrict_f64 far fuel x_min len coord = Some r /\ is_num r /\ num r = num coord.
Proof.
  intros Xm Xl Xc Z [LP LB] [C1 C2].
  assert (LB' : num len <= bpow radix2 1000) by (eapply Rle_trans; [exact LB|]; apply bpow_le; lia).
  destruct (sub_ok coord x_min Xc Xm) as [S1 S2]; [rewrite Z, Rminus_0_r, Rabs_right; lra|]. rewrite Z, Rminus_0_r, rnd_num in S1.
  destruct (ten_L len Xl LP LB) as (T1 & T2 & _). destruct (abs_ok (f_sub coord x_min) S2) as [A1 A2].
  assert (E : Bltb (f_mul (b64 10) len) (f_abs (f_sub coord x_min)) = false).
  { apply ltb_false; [assumption..|]. rewrite T1, A1, S1, Rabs_right by lra. rewrite <- (rnd_num coord). apply rnd_le. lra. }
  destruct (add_ok (f_sub coord x_min) x_min S2 Xm) as [P1 P2]; [rewrite S1, Z, Rplus_0_r, Rabs_right; lra|].
  rewrite S1, Z, Rplus_0_r, rnd_num in P1.
  destruct (add_ok x_min len Xm Xl) as [Q1 Q2]; [rewrite Z, Rplus_0_l, Rabs_right; lra|]. rewrite Z, Rplus_0_l, rnd_num in Q1.
  unfold restrict_f64. rewrite E. exists (f_add (f_sub coord x_min) x_min). split; [|now split].
  assert (U : Bltb (f_add (f_sub coord x_min) x_min) x_min = false) by (apply ltb_false; [assumption..|lra]).
  assert (V : Bleb (f_add x_min len) (f_add (f_sub coord x_min) x_min) = false) by (apply leb_false; [assumption..|lra]).
  destruct fuel; cbn [loop_up]; rewrite U; cbn [loop_down]; rewrite V; reflexivity.
Qed.

(** ** Counterexamples *)
Definition no_far : F64 -> F64 -> F64 := fun c _ => c.
(** 0.2, 1.0, 1.2 *)
Definition f_02 : F64 := f_lit 3602879701896397 (-54).
Definition f_12 : F64 := f_lit 5404319552844595 (-52).
Theorem restrict_below : match restrict_f64 no_far 4 f_02 (b64 1) f_12 with Some r => is_num r /\ num r < num f_02 | None => False end.
Proof.
  assert (H : match restrict_f64 no_far 4 f_02 (b64 1) f_12 with Some r => (is_finite r && Bltb r f_02)%bool | None => false end = true) by (vm_compute; reflexivity).
  destruct (restrict_f64 no_far 4 f_02 (b64 1) f_12) as [r|]; [|discriminate].
  apply andb_prop in H as [H1 H2]. split; [exact H1|]. apply ltb_num; [exact H1|reflexivity|exact H2].
Qed.
Theorem restrict_range_false : ~ (forall far fuel x_min len coord r, is_num x_min -> is_num len -> is_num coord -> 0 < num len ->
  num x_min <= num coord <= num x_min + 2 * num len -> restrict_f64 far fuel x_min len coord = Some r -> num x_min <= num r).
Proof.
  intros H. pose proof restrict_below as B. destruct (restrict_f64 no_far 4 f_02 (b64 1) f_12) as [r|] eqn:E; [|exact B].
  destruct B as [B1 B2]. apply (Rlt_not_le _ _ B2). destruct (b64_ok 1) as [O1 O2]; [lia|].
  apply (H no_far 4%nat f_02 (b64 1) f_12 r); [reflexivity..| | |exact E].
  - unfold num. rewrite O1. lra.
  - destruct (lit_ok 3602879701896397 (-54)) as [U1 _]; [lia..|]. destruct (lit_ok 5404319552844595 (-52)) as [V1 _]; [lia..|].
    fold f_02 in U1. fold f_12 in V1. rewrite U1, V1. unfold num. rewrite O1.
    replace (bpow radix2 (-54)) with (/ 18014398509481984) by reflexivity. replace (bpow radix2 (-52)) with (/ 4503599627370496) by reflexivity. lra.
Qed.

Definition f_2p60 : F64 := f_lit 1 60.
Theorem restrict_endless : forall fuel, restrict_f64 no_far fuel f_2p60 (b64 1) f_2p60 = None.
Proof.
  assert (D : f_sub f_2p60 (b64 1) = f_2p60) by (apply B2SF_inj; vm_compute; reflexivity).
  assert (A : f_add f_2p60 (b64 1) = f_2p60) by (apply B2SF_inj; vm_compute; reflexivity).
  assert (W : f_add (if Bltb (f_mul (b64 10) (b64 1)) (f_abs (f_sub f_2p60 f_2p60)) then no_far (f_sub f_2p60 f_2p60) (b64 1) else f_sub f_2p60 f_2p60) f_2p60 = f_2p60)
    by (apply B2SF_inj; vm_compute; reflexivity).
  assert (L1 : Bltb f_2p60 f_2p60 = false) by (vm_compute; reflexivity).
  assert (L2 : Bleb f_2p60 f_2p60 = true) by (vm_compute; reflexivity).
  assert (N : forall fuel, loop_down fuel f_2p60 (b64 1) f_2p60 = None).
  { induction fuel as [|f IH]; cbn [loop_down]; rewrite L2; [reflexivity|]. now rewrite D. }
  intros fuel. unfold restrict_f64. cbv zeta. rewrite W, A. destruct fuel; cbn [loop_up]; rewrite L1; apply N.
Qed.
Theorem restrict_ends_false : ~ (forall far x_min len coord, is_num x_min -> is_num len -> is_num coord -> 0 < num len ->
  num x_min <= num coord <= num x_min + num len -> exists fuel r, restrict_f64 far fuel x_min len coord = Some r).
Proof.
  intros H. destruct (b64_ok 1) as [O1 O2]; [lia|]. change (num (b64 1) = 1) in O1. destruct (H no_far f_2p60 (b64 1) f_2p60) as (fuel & r & E); [reflexivity..| | |].
  - rewrite O1. lra.
  - rewrite O1. lra.
  - now rewrite restrict_endless in E.
Qed.

(** ** Examples *)
(** 2 pi rounded, the period of the angle *)
Definition f_2pi : F64 := f_lit 7074237752028440 (-50).
Lemma ex_restrict : is_num f_2pi /\ 0 < num f_2pi <= bpow radix2 900 /\ num (f_add (b64 0) f_2pi) = num (b64 0) + num f_2pi /\
  match restrict_f64 no_far 38 (b64 0) f_2pi (b64 (-7)) with Some r => B2SF r = B2SF (f_lit 6267176156158512 (-50)) | None => False end.
Proof.
  destruct (lit_ok 7074237752028440 (-50)) as [U1 U2]; [lia..|]. fold f_2pi in U1, U2. destruct (b64_ok 0) as [O1 O2]; [lia|]. change (num (b64 0) = 0) in O1.
  split; [exact U2|]. split.
  - rewrite U1. replace (bpow radix2 (-50)) with (/ 1125899906842624) by reflexivity. split; [lra|].
    apply Rle_trans with (bpow radix2 3); [simpl; lra|]. apply bpow_le. lia.
  - split; [|vm_compute; reflexivity].
    destruct (add_ok (b64 0) f_2pi O2 U2) as [P1 _].
    + rewrite O1, Rplus_0_l, U1. replace (bpow radix2 (-50)) with (/ 1125899906842624) by reflexivity.
      rewrite Rabs_right by lra. apply Rle_trans with (bpow radix2 3); [simpl; lra|]. apply bpow_le. lia.
    + rewrite P1, O1, Rplus_0_l. apply rnd_num.
Qed.
