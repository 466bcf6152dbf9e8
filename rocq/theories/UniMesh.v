(** The uniform mesh in binary64. *)
From Coq Require Import Lia Lra ZArith Reals List.
From Flocq Require Import Core IEEE754.BinarySingleNaN.
From Verif Require Import QuadModel QuadProofs.
From Verif Require Import UniMeshSpec FltBase EdgeFloat UniMain UniNode FltSearch.
Import ListNotations.
Open Scope R_scope.

Lemma fill_f64 (mn mx : F64) (n : nat) (g : Z -> F64) : (1 <= n)%nat ->
  exists l,
    (let* v := wr (repeat (b64 0) (n + 1)) 0 mn in
     let* v := for_res (n - 1) (fun j v => let i := (Z.of_nat j + 1)%Z in wr v i (g i)) v in
     wr v (Z.of_nat n) mx) = Ok l /\
    length l = (n + 1)%nat /\ nth_error l 0 = Some mn /\ nth_error l n = Some mx /\
    forall i, (0 < i < n)%nat -> nth_error l i = Some (g (Z.of_nat i)).
Proof.
  intros Hn. rewrite wr_ok by (rewrite repeat_length; lia). cbn [bind].
  set (l0 := replace_nth (repeat (b64 0) (n + 1)) (Z.to_nat 0) mn).
  assert (L0 : length l0 = (n + 1)%nat) by (unfold l0; rewrite replace_nth_length, repeat_length; reflexivity).
  destruct (for_res_inv (fun k (v : list F64) => length v = (n + 1)%nat /\ nth_error v 0 = Some mn /\
              forall i, (0 < i <= k)%nat -> nth_error v i = Some (g (Z.of_nat i))) (n - 1)
              (fun j v => let i := (Z.of_nat j + 1)%Z in wr v i (g i)) l0) as (v & Ev & Lv & Hv0 & Hv).
  - split; [exact L0|]. split; [|intros; lia].
    unfold l0. apply nth_error_replace_eq. rewrite repeat_length; lia.
  - intros k v Hk (Lv & H0 & Hf). cbv zeta.
    replace (Z.of_nat k + 1)%Z with (Z.of_nat (k + 1)) by lia. rewrite wr_ok by lia. rewrite Nat2Z.id. eexists; split; [reflexivity|].
    split; [rewrite replace_nth_length; exact Lv|]. split.
    + rewrite nth_error_replace_neq by lia. exact H0.
    + intros i Hi. destruct (Nat.eq_dec i (k + 1)) as [->|Hne].
      * apply nth_error_replace_eq; lia.
      * rewrite nth_error_replace_neq by lia. apply Hf; lia.
  - cbv zeta in Ev |- *. rewrite Ev. cbn [bind]. rewrite wr_ok by lia. rewrite Nat2Z.id.
    eexists; split; [reflexivity|].
    split; [rewrite replace_nth_length; exact Lv|].
    split; [rewrite nth_error_replace_neq by lia; exact Hv0|].
    split; [apply nth_error_replace_eq; lia|].
    intros i Hi. rewrite nth_error_replace_neq by lia. apply Hv; lia.
Qed.

Section Mesh.
  Variables (mn mx : F64) (n : nat).
  Hypothesis E : mesh_ends mn mx n.
  Hypothesis RS : mesh_resolved mn mx n.
  Notation a := (num mn). Notation b := (num mx).
  Notation w := ((b - a) / INR n).
  Notation delta := (b64_div (f_sub mx mn) (b64 (Z.of_nat n))).
  Notation hh := (num delta).
  Notation B := (Rabs a + Rabs b).

  Lemma n_pos : 1 <= INR n <= 268435456.
  Proof. destruct E as (_ & _ & _ & _ & _ & N & _). unfold max_cells in N. rewrite INR_IZR_INZ. split; apply IZR_le; lia. Qed.
  Lemma nw : INR n * w = b - a. Proof. pose proof n_pos. field. lra. Qed.
  Lemma w_pos : 0 < w. Proof. destruct E as (_ & _ & L & _). pose proof n_pos. apply Rdiv_lt_0_compat; lra. Qed.
  Lemma b_bound : b - a <= B.
  Proof. pose proof (Rle_abs b). pose proof (Rle_abs (- a)) as Q. rewrite Rabs_Ropp in Q. lra. Qed.
  Lemma b_res : B <= 1099511627776 * w.
  Proof. pose proof RS as Q. unfold mesh_resolved in Q. replace (bpow radix2 40) with 1099511627776 in Q by (simpl; lra). exact Q. Qed.
  Lemma delta_ok : is_num delta /\ Rabs (hh - w) <= 201 / 100 * uu * w.
  Proof.
    destruct E as (E1 & E2 & E3 & E4 & E5 & N & E6). pose proof n_pos as NP. pose proof w_pos as WP. pose proof nw as NW. unfold max_cells in N.
    destruct (b64_ok (Z.of_nat n)) as [N1 N2]; [lia|]. change (num (b64 (Z.of_nat n)) = IZR (Z.of_nat n)) in N1. rewrite <- INR_IZR_INZ in N1.
    assert (T1 : bpow radix2 890 + bpow radix2 890 <= bpow radix2 1000).
    { replace (bpow radix2 890 + bpow radix2 890) with (bpow radix2 1 * bpow radix2 890) by (change (bpow radix2 1) with 2; ring). rewrite <- bpow_plus. apply bpow_le. lia. }
    apply Rabs_le_inv in E4, E5.
    destruct (sub_ok mx mn) as [S1 S2]; [exact E2|exact E1| |].
    { apply Rabs_le. lra. }
    pose proof (rnd_diff mx mn) as ED. rewrite <- S1, (Rabs_right (b - a)), uu_val in ED by lra. apply Rabs_le_inv in ED.
    set (s := num (f_sub mx mn)) in *. assert (U0 : 0 < uu <= / 1000000) by (unfold uu; lra).
    assert (UB : uu * (b - a) <= / 1000000 * (b - a)) by (apply Rmult_le_compat_r; lra).
    assert (SN : s / INR n * INR n = s) by (field; lra). set (z := s / INR n) in *.
    assert (ZW : (1 - uu) * w <= z <= (1 + uu) * w).
    { split; apply Rmult_le_reg_r with (INR n); try lra; rewrite SN, Rmult_assoc, (Rmult_comm w), NW; lra. }
    assert (UW : uu * w <= / 1000000 * w) by (apply Rmult_le_compat_r; lra).
    assert (ZP : 0 <= z <= 2 * w) by lra.
    assert (WB : w <= b - a) by (pose proof (Rmult_le_compat_r w 1 (INR n) (Rlt_le _ _ WP) (proj1 NP)) as Q0; rewrite NW in Q0; lra).
    destruct (div_ok (f_sub mx mn) (b64 (Z.of_nat n))) as [D1 D2]; [exact S2|rewrite N1; lra| |].
    { rewrite N1. fold s z. rewrite Rabs_right by lra. apply Rle_trans with (bpow radix2 4 * bpow radix2 890); [|rewrite <- bpow_plus; apply bpow_le; lia].
      replace (bpow radix2 4) with 16 by (simpl; lra). lra. }
    split; [exact D2|]. rewrite D1, N1. fold s z. pose proof (rnd_any z) as EZ. rewrite (Rabs_right z), uu_val in EZ by lra.
    assert (TT : bpow radix2 (-1075) <= uu * w / 1024).
    { apply Rle_trans with (bpow radix2 (-53) * bpow radix2 (-890) * bpow radix2 (-10)); [rewrite <- !bpow_plus; apply bpow_le; lia|].
      rewrite uu_val. change (bpow radix2 (-10)) with (/ 1024). nra. }
    assert (UZ : uu * z <= uu * (w + / 1000000 * w)) by (apply Rmult_le_compat_l; lra).
    apply Rabs_le_inv in EZ. apply Rabs_le. lra.
  Qed.
  Lemma h_w : w * (1 - / 1000000000) <= hh <= w * (1 + / 1000000000).
  Proof. destruct delta_ok as [_ D]. apply Rabs_le_inv in D. pose proof w_pos. unfold uu in D. lra. Qed.
  Lemma grid_ok : uniform_grid mn delta.
  Proof.
    destruct E as (E1 & E2 & E3 & E4 & E5 & N & E6). destruct delta_ok as [D1 _]. pose proof h_w as HW. pose proof w_pos as WP. pose proof n_pos as NP. pose proof nw as NW.
    split; [exact E1|]. split; [exact D1|]. split; [eapply Rle_trans; [exact E4|apply bpow_le; lia]|].
    assert (WB : w <= b - a) by (pose proof (Rmult_le_compat_r w 1 (INR n) (Rlt_le _ _ WP) (proj1 NP)) as Q0; rewrite NW in Q0; lra). apply Rabs_le_inv in E4, E5. split.
    - apply Rle_trans with (bpow radix2 (-1) * bpow radix2 (-890)); [rewrite <- bpow_plus; apply bpow_le; lia|]. change (bpow radix2 (-1)) with (/ 2). lra.
    - apply Rle_trans with (bpow radix2 4 * bpow radix2 890); [|rewrite <- bpow_plus; apply bpow_le; lia]. replace (bpow radix2 4) with 16 by (simpl; lra). lra.
  Qed.
  (** the interior points *)
  Lemma point_err i : (0 <= i <= Z.of_nat n)%Z ->
    is_num (knot_f64 mn delta i) /\ Rabs (num (knot_f64 mn delta i) - (a + IZR i * w)) <= 8 * uu * B /\
    Rabs (num (knot_f64 mn delta i) - (a + IZR i * w)) <= w / 100.
  Proof.
    intros Hi. destruct E as (E1 & E2 & E3 & _ & _ & N & _). unfold max_cells in N. pose proof n_pos as NP. pose proof w_pos as WP. pose proof nw as NW.
    destruct (knot_ok mn delta grid_ok i) as [K1 K2]; [lia|]. split; [exact K2|].
    assert (NB : (0 + Z.of_nat n <= max_cells)%Z) by (unfold max_cells; lia).
    pose proof (knot_err mn delta (Z.of_nat n) 0 grid_ok NB i ltac:(lia)) as KE. rewrite <- K1 in KE. unfold magnitude in KE. rewrite Z.add_0_l, <- INR_IZR_INZ in KE.
    destruct delta_ok as [_ DE]. pose proof h_w as HW. pose proof b_bound as BB. pose proof b_res as BR. apply Rabs_le_inv in KE, DE.
    assert (I0 : 0 <= IZR i <= INR n) by (rewrite INR_IZR_INZ; split; apply IZR_le; lia).
    assert (IH : Rabs (IZR i * (hh - w)) <= INR n * (201 / 100 * uu * w)).
    { rewrite Rabs_mult, (Rabs_right (IZR i)) by lra. apply Rmult_le_compat; try lra; [apply Rabs_pos|]. apply Rabs_le. lra. }
    replace (INR n * (201 / 100 * uu * w)) with (201 / 100 * uu * (INR n * w)) in IH by ring. rewrite NW in IH. apply Rabs_le_inv in IH.
    assert (NH : INR n * hh <= INR n * (w * (1 + / 1000000000))) by (apply Rmult_le_compat_l; lra).
    replace (INR n * (w * (1 + / 1000000000))) with ((INR n * w) * (1 + / 1000000000)) in NH by ring. rewrite NW in NH.
    assert (WB : w <= b - a) by (pose proof (Rmult_le_compat_r w 1 (INR n) (Rlt_le _ _ WP) (proj1 NP)) as Q0; rewrite NW in Q0; lra).
    pose proof (Rabs_pos b) as PB. pose proof (Rabs_pos a) as PA.
    set (k := num (knot_f64 mn delta i)) in *.
    assert (Q : Rabs (k - (a + IZR i * w)) <= uu * (2 * (Rabs a + INR n * hh) + hh + 201 / 100 * (b - a))).
    { replace (k - (a + IZR i * w)) with ((k - (a + IZR i * hh)) + IZR i * (hh - w)) by ring. apply Rabs_le. lra. }
    assert (Q2 : uu * (2 * (Rabs a + INR n * hh) + hh + 201 / 100 * (b - a)) <= uu * (8 * B)).
    { apply Rmult_le_compat_l; [unfold uu; lra|]. lra. }
    split; [lra|]. eapply Rle_trans; [exact Q|]. eapply Rle_trans; [exact Q2|]. unfold uu. lra.
  Qed.
  Theorem mesh_ok : exists l, build_uniform_f64 mn mx n = Ok l /\ uniform_mesh mn mx n l.
  Proof.
    destruct E as (E1 & E2 & E3 & _ & _ & N & _). unfold max_cells in N. pose proof n_pos as NP. pose proof w_pos as WP. pose proof nw as NW.
    destruct (fill_f64 mn mx n (knot_f64 mn delta)) as (l & L1 & L2 & L3 & L4 & L5); [lia|]. exists l. split; [exact L1|].
    pose proof (Rabs_pos b) as PB. pose proof (Rabs_pos a) as PA. pose proof uu_pos as UP.
    assert (EV : epsilon = 2 * uu) by (unfold epsilon, uu; change (bpow radix2 (-52)) with (/ 4503599627370496); lra).
    assert (ALL : forall i y, nth_error l i = Some y -> (i <= n)%nat /\ is_num y /\
      Rabs (num y - (a + INR i * w)) <= 8 * uu * B /\ Rabs (num y - (a + INR i * w)) <= w / 100).
    { intros i y Y. assert (IL : (i < n + 1)%nat) by (rewrite <- L2; apply nth_error_Some; congruence).
      assert (Z0 : 0 <= uu * B) by (apply Rmult_le_pos; lra). split; [lia|].
      destruct (Nat.eq_dec i 0) as [->|I0].
      - rewrite L3 in Y. apply some_inj in Y. subst y. split; [exact E1|]. cbn [INR]. replace (a - (a + 0 * w)) with 0 by ring. rewrite Rabs_R0. lra.
      - destruct (Nat.eq_dec i n) as [->|IN].
        + rewrite L4 in Y. apply some_inj in Y. subst y. split; [exact E2|]. rewrite NW. replace (b - (a + (b - a))) with 0 by ring. rewrite Rabs_R0. lra.
        + rewrite L5 in Y by lia. apply some_inj in Y. subst y. rewrite (INR_IZR_INZ i). apply point_err. lia. }
    split; [|split; [exact L2|split; [exact L3|split; [exact L4|]]]].
    - split; [lia|]. split.
      + apply Forall_forall. intros y Y. apply In_nth_error in Y. destruct Y as [i Y]. now apply ALL in Y.
      + intros i j y z IJ Y Z. apply ALL in Y, Z. destruct Y as (_ & _ & _ & Y). destruct Z as (_ & _ & _ & Z). apply Rabs_le_inv in Y, Z.
        assert (J : INR i + 1 <= INR j) by (rewrite <- S_INR; apply le_INR; lia). apply Rmult_le_compat_r with (r := w) in J; lra.
    - intros i y Y. apply ALL in Y. destruct Y as (_ & _ & Y & _). rewrite EV. lra.
  Qed.
End Mesh.

(** ** Examples *)
Lemma ends_07 : mesh_ends (b64 (-1)) (b64 6) 10 /\ mesh_resolved (b64 (-1)) (b64 6) 10.
Proof.
  destruct (b64_ok (-1)) as [O1 O2]; [lia|]. change (num (b64 (-1)) = -1) in O1. destruct (b64_ok 6) as [U1 U2]; [lia|]. change (num (b64 6) = 6) in U1.
  unfold mesh_ends, mesh_resolved, max_cells. rewrite O1, U1. replace (INR 10) with 10 by (simpl; lra).
  rewrite (Rabs_left (-1)), (Rabs_right 6) by lra. assert (T : 16 <= bpow radix2 890) by (change 16 with (bpow radix2 4); apply bpow_le; lia).
  assert (T2 : bpow radix2 (-890) <= / 2) by (change (/ 2) with (bpow radix2 (-1)); apply bpow_le; lia).
  replace (bpow radix2 40) with 1099511627776 by (simpl; lra).
  split; [|lra]. split; [exact O2|]. split; [exact U2|]. split; [lra|]. split; [lra|]. split; [lra|]. split; [lia|]. lra.
Qed.
(** ** Counterexample: 4 cells between 2^53 and 2^53 + 2 *)
Definition f_2_53 : F64 := f_lit 1 53.
Definition f_2_53_2 : F64 := f_lit 4503599627370497 1.
Lemma ends_53 : mesh_ends f_2_53 f_2_53_2 4.
Proof.
  destruct (lit_ok 1 53) as [O1 O2]; [lia..|]. fold f_2_53 in O1, O2. destruct (lit_ok 4503599627370497 1) as [U1 U2]; [lia..|]. fold f_2_53_2 in U1, U2.
  change (bpow radix2 1) with 2 in U1. replace (bpow radix2 53) with 9007199254740992 in O1 by (simpl; lra).
  unfold mesh_ends, max_cells. rewrite O1, U1. replace (INR 4) with 4 by (simpl; lra).
  assert (T : 18446744073709551616 <= bpow radix2 890) by (replace 18446744073709551616 with (bpow radix2 64) by (simpl; lra); apply bpow_le; lia).
  assert (T2 : bpow radix2 (-890) <= / 2) by (change (/ 2) with (bpow radix2 (-1)); apply bpow_le; lia).
  rewrite !Rabs_right by lra. split; [exact O2|]. split; [exact U2|]. split; [lra|]. split; [lra|]. split; [lra|]. split; [lia|]. lra.
Qed.
Theorem mesh_false : ~ (forall mn mx n, mesh_ends mn mx n -> exists l, build_uniform_f64 mn mx n = Ok l /\ break_points l).
Proof.
  intros Q. destruct (Q f_2_53 f_2_53_2 4%nat ends_53) as (l & L & _ & N & I).
  destruct (fill_f64 f_2_53 f_2_53_2 4 (knot_f64 f_2_53 (b64_div (f_sub f_2_53_2 f_2_53) (b64 (Z.of_nat 4))))) as (l' & L1 & _ & L3 & _ & L5); [lia|].
  assert (l = l') by (change (build_uniform_f64 f_2_53 f_2_53_2 4 = Ok l') in L1; congruence). subst l'.
  specialize (I 0%nat 1%nat _ _ ltac:(lia) L3 (L5 1%nat ltac:(lia))). rewrite Forall_forall in N.
  pose proof (N _ (nth_error_In _ _ L3)) as N0. pose proof (N _ (nth_error_In _ _ (L5 1%nat ltac:(lia)))) as N1.
  apply (ltb_num _ _ N0 N1) in I.
  assert (C : Bltb f_2_53 (knot_f64 f_2_53 (b64_div (f_sub f_2_53_2 f_2_53) (b64 (Z.of_nat 4))) (Z.of_nat 1)) = false) by (vm_compute; reflexivity).
  rewrite C in I. exact (Bool.diff_false_true I).
Qed.
(** the search of C131 on such a mesh *)
Theorem mesh_search asserts fuel deg mn mx n x : mesh_ends mn mx n -> mesh_resolved mn mx n -> is_num x -> num mn <= num x <= num mx -> (n + 1 <= fuel)%nat ->
  exists l i s, build_uniform_f64 mn mx n = Ok l /\ periodic_knot asserts fuel deg l x = Ok (Some (Z.of_nat i + s)%Z) /\ cell_of l x i /\
    (s = 0 \/ s = 1 /\ Z.even deg = true)%Z.
Proof.
  intros E R X B F. destruct (mesh_ok mn mx n E R) as (l & L1 & L2 & L3 & L4 & L5 & _).
  destruct (periodic_found asserts fuel deg l x L2) as (i & s & G1 & G2 & G3); [|lia|exists l, i, s; auto].
  split; [exact X|]. exists mn, mx. replace (length l - 1)%nat with n by lia. auto.
Qed.
Lemma ex_mesh : match build_uniform_f64 (b64 (-1)) (b64 6) 10 with
  | Ok l => length l = 11%nat /\ periodic_knot true 11 3 l f_11m = Ok (Some 3%Z) | _ => False end.
Proof. vm_compute. split; reflexivity. Qed.
