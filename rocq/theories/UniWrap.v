(** The periodic stencil in binary64. *)
From Coq Require Import Lia Lra ZArith Reals List.
From Flocq Require Import Core IEEE754.BinarySingleNaN.
From Verif Require Import UniSpec FltBase EdgeFloat UniMain UniNode.
Open Scope R_scope.

Section Wrap.
  Variables (o h : F64) (deg n : Z) (x : F64).
  Hypothesis G : uniform_grid o h.
  Hypothesis DB : (2 <= deg <= n)%Z.
  Hypothesis NB : (n + deg <= max_cells)%Z.
  Hypothesis RS : resolved o h (n + deg).
  Hypothesis X : on_grid o h n x.
  Notation O := (num o). Notation hh := (num h).
  Notation kn i := (rnd (O + rnd (IZR i * hh))).
  Notation M := (magnitude o h (n + deg)).

  Lemma nb : (1 <= n <= max_cells)%Z. Proof. lia. Qed.
  Lemma hp : 0 < hh. Proof. exact (h_pos o h G). Qed.
  (** a number of cells: less than a thousandth of a cell of error *)
  Lemma m_h : 1099511627776 * hh >= M.
  Proof. apply Rle_ge. exact (m_bound o h deg n RS). Qed.
  Lemma kerr i : (0 <= i <= n + deg)%Z -> Rabs (kn i - (O + IZR i * hh)) <= 2 * uu * M + uu * hh.
  Proof. intros Hi. apply (knot_err o h deg n G NB). exact Hi. Qed.
  Lemma knear i : (0 <= i <= n + deg)%Z -> O + IZR i * hh - hh / 2048 <= kn i <= O + IZR i * hh + hh / 2048.
  Proof.
    intros Hi. pose proof (kerr i Hi) as E. apply Rabs_le_inv in E. pose proof m_h as MH. pose proof hp as P. unfold uu in E. lra.
  Qed.
  Lemma n_r : 2 <= IZR n <= 268435456. Proof. unfold max_cells in NB. split; apply IZR_le; lia. Qed.
  Lemma m_n : O <= M /\ - O <= M /\ IZR n * hh + hh <= M.
  Proof.
    unfold magnitude. rewrite plus_IZR. pose proof hp as P. pose proof n_r as NR. assert (D1 : 2 <= IZR deg) by (apply IZR_le; lia).
    pose proof (Rle_abs O) as AA. pose proof (Rle_abs (- O)) as A. rewrite Rabs_Ropp in A. pose proof (Rabs_pos O) as AP.
    assert (2 * hh <= IZR deg * hh) by (apply Rmult_le_compat_r; lra). assert (2 * hh <= IZR n * hh) by (apply Rmult_le_compat_r; lra). lra.
  Qed.
  Lemma xr : is_num x /\ O <= num x <= kn n.
  Proof. exact (x_range o h n x X). Qed.
  (** the position of the coordinate *)
  Lemma pos_err : Rabs (rnd (num x - O) - (num x - O)) <= hh / 1024.
  Proof.
    destruct xr as (X1 & XL & XU). pose proof (rnd_diff x o) as E. rewrite (Rabs_right (num x - O)), uu_val in E by lra.
    eapply Rle_trans; [exact E|]. pose proof (knear n ltac:(lia)) as K. pose proof hp as P. pose proof n_r as NR.
    assert (IZR n * hh <= 268435456 * hh) by (apply Rmult_le_compat_r; lra).
    apply Rle_trans with (uu * (268435457 * hh)); [apply Rmult_le_compat_l; [unfold uu; lra|lra]|unfold uu; lra].
  Qed.
  Notation q := (rnd (num x - O) / hh).
  Lemma q_h : q * hh = rnd (num x - O). Proof. pose proof hp. field. lra. Qed.
  (** the closest knot *)
  Lemma closest_pos : exists k, closest_uniform deg o h x = Ok k /\ (0 <= k <= n)%Z /\
    (Z.even deg = true -> O + (IZR k - 4 / 5) * hh <= num x <= O + (IZR k + 4 / 5) * hh) /\
    (Z.even deg = false -> O + (IZR k - 4 / 5) * hh <= num x <= O + (IZR k + 1 + 4 / 5) * hh).
  Proof.
    pose proof nb as N1. pose proof hp as P. pose proof pos_err as PE. apply Rabs_le_inv in PE. pose proof q_h as QH. destruct xr as (X1 & XL & XU).
    pose proof (knear n ltac:(lia)) as K. unfold max_cells in *.
    assert (QN : q <= IZR n + / 4) by (apply Rmult_le_reg_r with hh; [exact P|]; rewrite QH; lra).
    assert (RN : rnd q <= IZR n + / 4).
    { replace (IZR n + / 4) with (IZR (4 * n + 1) / 4) in * by (rewrite plus_IZR, mult_IZR; lra). rewrite <- (quarter (4 * n + 1)) by lia. now apply rnd_le. }
    assert (LOWQ : forall c, c < q -> O + (c - / 512) * hh <= num x).
    { intros c C. apply Rmult_lt_compat_r with (r := hh) in C; [|exact P]. rewrite QH in C. lra. }
    assert (UPQ : forall c, q < c -> num x <= O + (c + / 512) * hh).
    { intros c C. apply Rmult_lt_compat_r with (r := hh) in C; [|exact P]. rewrite QH in C. lra. }
    destruct (Z.even deg) eqn:E.
    - destruct (closest_even o h G n N1 x X deg E) as (k & K1 & K2 & K3). exists k. split; [exact K1|]. split; [|split; [intros _|discriminate]].
      + split; [lia|]. assert (k < n + 1)%Z; [|lia]. apply lt_IZR. rewrite plus_IZR. lra.
      + split.
        * assert (C : IZR (4 * k - 3) / 4 < q) by (apply (q_low o h x); [lia|rewrite minus_IZR, mult_IZR; lra]). apply LOWQ in C.
          rewrite minus_IZR, mult_IZR in C. lra.
        * assert (C : q < IZR (4 * k + 3) / 4) by (apply (q_up o h x); [lia|rewrite plus_IZR, mult_IZR; lra]). apply UPQ in C.
          rewrite plus_IZR, mult_IZR in C. lra.
    - destruct (closest_odd o h G n N1 x X deg E) as (k & K1 & K2 & K3). exists k. split; [exact K1|]. split; [|split; [discriminate|intros _]].
      + split; [lia|]. assert (k < n + 1)%Z; [|lia]. apply lt_IZR. rewrite plus_IZR. lra.
      + split.
        * assert (C : IZR (4 * k - 3) / 4 < q) by (apply (q_low o h x); [lia|rewrite minus_IZR, mult_IZR; lra]). apply LOWQ in C.
          rewrite minus_IZR, mult_IZR in C. lra.
        * assert (C : q < IZR (4 * k + 7) / 4) by (apply (q_up o h x); [lia|rewrite plus_IZR, mult_IZR; lra]). apply UPQ in C.
          rewrite plus_IZR, mult_IZR in C. lra.
  Qed.
  (** the coordinate moved by a period *)
  Notation moved := (f_add x (f_length (knot_f64 o h 0) (knot_f64 o h n))).
  Lemma moved_ok : is_num moved /\ Rabs (num moved - (num x + IZR n * hh)) <= 8 * epsilon * M.
  Proof.
    pose proof nb as N1. unfold max_cells in *. pose proof hp as P. destruct xr as (X1 & XL & XU). pose proof (knear n ltac:(lia)) as K. pose proof m_n as (M1 & M2 & M3).
    pose proof n_r as NR. destruct (knot_ok o h G 0) as [A1 A2]; [lia|]. rewrite (knot_0 o h) in A1. destruct (knot_ok o h G n) as [B1 B2]; [lia|].
    assert (BIG : Rabs O <= bpow radix2 900 /\ hh <= bpow radix2 900) by (split; apply G). destruct BIG as [BO BH].
    assert (T1 : bpow radix2 900 * 1000000000 <= bpow radix2 1000).
    { apply Rle_trans with (bpow radix2 900 * bpow radix2 60); [|rewrite <- bpow_plus; apply bpow_le; lia]. apply Rmult_le_compat_l; [apply bpow_ge_0|].
      replace (bpow radix2 60) with 1152921504606846976 by (simpl; lra). lra. }
    assert (NH : IZR n * hh <= 268435456 * hh) by (apply Rmult_le_compat_r; lra). apply Rabs_le_inv in BO.
    set (k2 := kn n) in *. set (len := f_length (knot_f64 o h 0) (knot_f64 o h n)).
    destruct (sub_ok (knot_f64 o h n) (knot_f64 o h 0)) as [L1 L2]; [exact B2|exact A2| |].
    { rewrite A1, B1. apply Rabs_le. lra. }
    pose proof (rnd_diff (knot_f64 o h n) (knot_f64 o h 0)) as EL. rewrite A1, B1 in L1, EL. change (f_sub (knot_f64 o h n) (knot_f64 o h 0)) with len in L1, L2.
    rewrite <- L1, (Rabs_right (k2 - O)), uu_val in EL by lra. apply Rabs_le_inv in EL.
    assert (E1 : uu * (k2 - O) <= uu * M) by (apply Rmult_le_compat_l; [unfold uu; lra|lra]).
    assert (MH : M <= 1099511627776 * hh) by (pose proof m_h; lra). assert (UM : uu * M <= hh / 2048) by (unfold uu; lra).
    destruct (add_ok x len) as [S1 S2]; [exact X1|exact L2| |].
    { apply Rabs_le. lra. }
    split; [exact S2|]. pose proof (rnd_sum x len) as ES. rewrite <- S1, uu_val in ES.
    assert (AB : Rabs (num x + num len) <= 3 * M) by (apply Rabs_le; lra).
    assert (E2 : uu * Rabs (num x + num len) <= uu * (3 * M)) by (apply Rmult_le_compat_l; [unfold uu; lra|exact AB]). apply Rabs_le_inv in ES.
    pose proof (kerr n ltac:(lia)) as KE. fold k2 in KE. apply Rabs_le_inv in KE.
    assert (NH0 : 0 <= IZR n * hh) by (apply Rmult_le_pos; lra). assert (E3 : uu * hh <= uu * M) by (apply Rmult_le_compat_l; [unfold uu; lra|lra]).
    replace epsilon with (2 * uu) by (unfold epsilon, uu; change (bpow radix2 (-52)) with (/ 4503599627370496); lra). apply Rabs_le. lra.
  Qed.
  Lemma moved_near : num x + IZR n * hh - hh / 256 <= num moved <= num x + IZR n * hh + hh / 256.
  Proof.
    destruct moved_ok as [_ E]. apply Rabs_le_inv in E. pose proof m_h as MH. pose proof hp as P.
    replace epsilon with (/ 4503599627370496) in E by reflexivity. lra.
  Qed.

  Lemma periodic_ok asserts : exists f y, stencil_periodic_f64 asserts deg o h n x = Ok (f, y) /\ (0 <= f <= n)%Z /\ is_num y /\
    kn f <= num y <= kn (f + deg) /\ (y = x \/ y = moved).
  Proof.
    destruct closest_pos as (k & K1 & K2 & KE & KO). pose proof nb as N1. unfold max_cells in *. pose proof hp as P. destruct xr as (X1 & XL & XU).
    destruct (knot_ok o h G k) as [C1 C2]; [lia|]. unfold stencil_periodic_f64, find_stencil_periodic_f64. rewrite K1. cbn [bind].
    set (b := Bltb x (knot_f64 o h k)).
    pose proof (Z.div_mod deg 2 ltac:(lia)) as DM. pose proof (Z.mod_pos_bound deg 2 ltac:(lia)) as MB.
    assert (EV : Z.even deg = true /\ (deg mod 2 = 0)%Z \/ Z.even deg = false /\ (deg mod 2 = 1)%Z).
    { rewrite Zmod_even. destruct (Z.even deg); auto. }
    set (s := (deg mod 2 * (if b then 1 else 0))%Z). assert (SB : (0 <= s <= 1)%Z) by (unfold s; destruct b; lia).
    set (m := (deg / 2)%Z) in *. assert (M0 : (1 <= m)%Z) by (unfold m; apply Z.div_le_lower_bound; lia).
    (* position of x in the stencil which begins at k - m - s *)
    assert (PL : O + IZR (k - m - s) * hh + hh / 8 <= num x).
    { assert (K4 : (k - m - s <= k - 1)%Z) by lia. apply IZR_le in K4. rewrite minus_IZR in K4 at 1. rewrite !minus_IZR in *.
      assert (K5 : (IZR k - IZR m - IZR s) * hh <= (IZR k - 1) * hh) by (apply Rmult_le_compat_r; lra).
      destruct EV as [[E1 E2]|[E1 E2]]; [specialize (KE E1)|specialize (KO E1)]; lra. }
    assert (PU : num x <= O + IZR (k - m - s + deg) * hh - hh / 8).
    { destruct EV as [[E1 E2]|[E1 E2]].
      - assert (s = 0)%Z by (unfold s; rewrite E2; lia). assert (K4 : (k + 1 <= k - m - s + deg)%Z) by lia. apply IZR_le in K4. rewrite plus_IZR in K4 at 1.
        apply Rmult_le_compat_r with (r := hh) in K4; [|lra]. specialize (KE E1). lra.
      - assert (K4 : (k + 2 - s <= k - m - s + deg)%Z) by lia. apply IZR_le in K4. apply Rmult_le_compat_r with (r := hh) in K4; [|lra].
        rewrite minus_IZR, plus_IZR in K4 at 1. destruct (bool_of b) as [[B1 B2]|[B1 B2]].
        + assert (S1 : s = 1%Z) by (unfold s; rewrite E2, B1; lia). rewrite S1 in K4 at 1.
          unfold b in B2. apply ltb_num in B2; [|assumption..]. rewrite C1 in B2. pose proof (knear k ltac:(lia)). lra.
        + assert (S1 : s = 0%Z) by (unfold s; rewrite B1; lia). rewrite S1 in K4 at 1. specialize (KO E1). lra. }
    set (wrapped := (- m - s <? 0 - k)%Z).
    set (f := (k + (n - 0) * (if wrapped then 1 else 0) + (- m - s))%Z).
    set (y := if (k <? f)%Z then moved else x).
    assert (OUT : (0 <= f <= n)%Z /\ is_num y /\ kn f <= num y <= kn (f + deg) /\ (y = x \/ y = moved)).
    { unfold y, f, wrapped. destruct (- m - s <? 0 - k)%Z eqn:T1.
      - apply Z.ltb_lt in T1. assert (F : (k + (n - 0) * 1 + (- m - s) = n + (k - m - s))%Z) by lia. rewrite F.
        assert (MS : (m + s < n)%Z).
        { destruct EV as [[E1 E2]|[E1 E2]]; [assert (s = 0)%Z by (unfold s; rewrite E2; lia); lia|lia]. }
        replace (k <? n + (k - m - s))%Z with true by (symmetry; apply Z.ltb_lt; lia).
        split; [lia|]. split; [apply moved_ok|]. split; [|auto]. pose proof moved_near as MN.
        pose proof (knear (n + (k - m - s)) ltac:(lia)) as J1. pose proof (knear (n + (k - m - s) + deg) ltac:(lia)) as J2.
        set (a1 := kn (n + (k - m - s))) in *. set (a2 := kn (n + (k - m - s) + deg)) in *.
        replace (n + (k - m - s) + deg)%Z with (n + (k - m - s + deg))%Z in J2 by lia. rewrite (plus_IZR n) in J1. rewrite (plus_IZR n) in J2. lra.
      - apply Z.ltb_ge in T1. assert (F : (k + (n - 0) * 0 + (- m - s) = k - m - s)%Z) by lia. rewrite F.
        replace (k <? k - m - s)%Z with false by (symmetry; apply Z.ltb_ge; lia).
        split; [lia|]. split; [exact X1|]. split; [|auto].
        pose proof (knear (k - m - s) ltac:(lia)) as J1. pose proof (knear (k - m - s + deg) ltac:(lia)) as J2. lra. }
    destruct OUT as (F1 & Y1 & (Y2 & Y3) & Y4). exists f, y. split; [|auto].
    destruct (knot_ok o h G f) as [A1 A2]; [lia|]. destruct (knot_ok o h G (f + deg)) as [B1 B2]; [lia|].
    replace (Bltb y (knot_f64 o h f)) with false by (symmetry; apply ltb_false; [assumption..|rewrite A1; exact Y2]).
    replace (Bleb (knot_f64 o h f) y) with true by (symmetry; apply leb_num; [assumption..|rewrite A1; exact Y2]).
    replace (Bleb y (knot_f64 o h (f + deg))) with true by (symmetry; apply leb_num; [assumption..|rewrite B1; exact Y3]).
    destruct asserts; reflexivity.
  Qed.
End Wrap.

Theorem periodic_surrounds asserts deg o h n x : uniform_grid o h -> (2 <= deg <= n)%Z -> (n + deg <= max_cells)%Z -> resolved o h (n + deg) -> on_grid o h n x ->
  exists f y, stencil_periodic_f64 asserts deg o h n x = Ok (f, y) /\ in_grid (n + deg) deg f /\ is_num y /\
    starts_before o h f y /\ ends_after o h (f + deg) y /\
    (y = x \/ Rabs (num y - (num x + IZR n * num h)) <= 8 * epsilon * magnitude o h (n + deg)).
Proof.
  intros G D N R X. destruct (periodic_ok o h deg n x G D N R X asserts) as (f & y & F1 & F2 & F3 & [F4 F5] & F6).
  exists f, y. split; [exact F1|]. split; [unfold in_grid; lia|]. split; [exact F3|].
  split; [eexists; split; [apply is_knot_eq; reflexivity|exact F4]|]. split; [eexists; split; [apply is_knot_eq; reflexivity|exact F5]|].
  destruct F6 as [->| ->]; [auto|]. right. now apply (moved_ok o h deg n x G D N R X).
Qed.
Lemma ex_periodic : uniform_grid (b64 (-1)) f_07 /\ resolved (b64 (-1)) f_07 (10 + 3) /\ on_grid (b64 (-1)) f_07 10 f_11m /\
  match stencil_periodic_f64 true 3 (b64 (-1)) f_07 10 f_11m with Ok (f, _) => f = 1%Z | _ => False end /\
  match stencil_periodic_f64 true 3 (b64 (-1)) f_07 10 (f_lit (-3) (-2)) with Ok (f, _) => f = 9%Z | _ => False end.
Proof.
  split; [exact grid_07|]. destruct (b64_ok (-1)) as [O1 O2]; [lia|]. change (num (b64 (-1)) = -1) in O1.
  destruct (lit_ok 6305039478318694 (-53)) as [U1 U2]; [lia..|]. fold f_07 in U1, U2.
  split; [|split; [apply on_07; [lia..| |]; vm_compute; reflexivity|split; vm_compute; reflexivity]].
  unfold resolved, magnitude. rewrite O1, U1. replace (Rabs (-1)) with 1 by (rewrite Rabs_left; lra).
  replace (bpow radix2 (-53)) with (/ 9007199254740992) by reflexivity. replace (bpow radix2 40) with 1099511627776 by (simpl; lra). change (10 + 3)%Z with 13%Z. lra.
Qed.
(** degree 1: the counterexample of the non-periodic evaluator *)
Lemma linear_periodic : stencil_periodic_f64 true 1 (b64 (-1)) f_07 10 f_11m = AssertFail.
Proof. vm_compute. reflexivity. Qed.
Theorem periodic_false : ~ (forall deg o h n x, uniform_grid o h -> (1 <= deg <= n)%Z -> (n + deg <= max_cells)%Z -> resolved o h (n + deg) -> on_grid o h n x ->
  exists r, stencil_periodic_f64 true deg o h n x = Ok r).
Proof.
  intros Q. destruct ex_periodic as (G & R & X & _). destruct (Q 1%Z (b64 (-1)) f_07 10%Z f_11m) as [r F]; [exact G|lia|unfold max_cells; lia| |exact X|].
  - eapply Rle_trans; [|exact R]. unfold magnitude. apply Rplus_le_compat_l, Rmult_le_compat_r; [|apply IZR_le; lia]. apply Rlt_le, (h_pos _ _ G).
  - rewrite linear_periodic in F. discriminate.
Qed.
