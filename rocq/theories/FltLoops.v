(** restrict_to_idx_range in binary64: the loops end inside the domain when the end of the domain is exact. *)
From Coq Require Import Lia Lra ZArith Reals List.
From Flocq Require Import Core IEEE754.BinarySingleNaN.
From Verif Require Import FltSpec FltBase EdgeFloat.
Open Scope R_scope.

Notation u := (bpow radix2 (-53)) (only parsing).
Lemma u_small : u * (bpow radix2 20 + 20) <= / 4.
Proof. replace (bpow radix2 (-53)) with (/ IZR (2 ^ 53)) by reflexivity. replace (bpow radix2 20) with (IZR (2 ^ 20)) by reflexivity.
  change (2 ^ 53)%Z with 9007199254740992%Z. change (2 ^ 20)%Z with 1048576%Z. lra. Qed.
Lemma big_bound L m z : 0 < L -> L <= bpow radix2 900 -> Rabs m <= bpow radix2 20 * L -> Rabs z <= Rabs m + 40 * L -> Rabs z <= bpow radix2 1000.
Proof.
  intros P B M H. eapply Rle_trans; [exact H|]. apply Rle_trans with (bpow radix2 100 * bpow radix2 900).
  - apply Rle_trans with (bpow radix2 100 * L).
    + assert (bpow radix2 20 + 40 <= bpow radix2 100).
      { replace (bpow radix2 20) with (IZR (2 ^ 20)) by reflexivity. rewrite <- (plus_IZR (2 ^ 20) 40).
        replace (bpow radix2 100) with (IZR (2 ^ 100)) by reflexivity. apply IZR_le. now vm_compute. }
      nra.
    + apply Rmult_le_compat_l; [apply bpow_ge_0|exact B].
  - rewrite <- bpow_plus. apply bpow_le. lia.
Qed.

Section Loops.
  Variables (x_min len : F64).
  Hypotheses (Xm : is_num x_min) (Xl : is_num len).
  Hypothesis LP : 0 < num len.
  Hypothesis LB : num len <= bpow radix2 900.
  Hypothesis MB : Rabs (num x_min) <= bpow radix2 20 * num len.
  Local Notation m := (num x_min).
  Local Notation L := (num len).
  Local Notation M := (Rabs m + 20 * L).

  Lemma err_small : u * M <= L / 4.
  Proof.
    pose proof u_small. pose proof (bpow_ge_0 radix2 (-53)).
    apply Rle_trans with (u * ((bpow radix2 20 + 20) * L)); [apply Rmult_le_compat_l; lra|nra].
  Qed.
  Lemma err_pos : 0 <= u * M.
  Proof. apply Rmult_le_pos; [apply bpow_ge_0|]. pose proof (Rabs_pos m). lra. Qed.

  Lemma down_ok x_max : is_num x_max -> num x_max = m + L -> forall n fuel c, (n <= fuel)%nat -> (n <= 38)%nat -> is_num c ->
    m <= num c < m + L + INR n * (L / 2) ->
    exists r, loop_down fuel x_max len c = Some r /\ is_num r /\ m <= num r < m + L /\
      exists k, Rabs (num r - (num c + IZR k * L)) <= INR n * (u * M).
  Proof.
    intros XM EM. induction n as [|n IH]; intros fuel c F N C B.
    - exists c. change (INR 0) with 0 in *. assert (E : Bleb x_max c = false) by (apply leb_false; [assumption..|lra]).
      split; [destruct fuel; cbn [loop_down]; now rewrite E|]. split; [exact C|]. split; [lra|]. exists 0%Z.
      replace (num c - (num c + 0 * L)) with 0 by ring. rewrite Rabs_R0. lra.
    - destruct (Bleb x_max c) eqn:E.
      2:{ exists c. split; [destruct fuel; cbn [loop_down]; now rewrite E|]. split; [exact C|]. apply leb_false in E; [|assumption..].
          split; [lra|]. exists 0%Z. replace (num c - (num c + 0 * L)) with 0 by ring. rewrite Rabs_R0.
          apply Rmult_le_pos; [apply pos_INR|apply err_pos]. }
      destruct fuel as [|fuel]; [lia|]. pose proof E as E'. apply leb_num in E'; [|assumption..]. rewrite EM in E'.
      assert (NB : INR (S n) <= 38) by (replace 38 with (INR 38) by (simpl; lra); now apply le_INR).
      assert (U : num c - L <= m + 19 * L) by nra.
      assert (A : Rabs (num c - L) <= M).
      { pose proof (Rle_abs m). pose proof (Rle_abs (- m)). rewrite Rabs_Ropp in *. apply Rabs_le. split; lra. }
      destruct (sub_ok c len C Xl) as [S1 S2].
      { apply (big_bound L m); try assumption. lra. }
      pose proof (rnd_diff c len) as R1. rewrite <- S1 in R1.
      assert (R2 : Rabs (num (f_sub c len) - (num c - L)) <= u * M).
      { eapply Rle_trans; [exact R1|]. apply Rmult_le_compat_l; [apply bpow_ge_0|exact A]. }
      pose proof err_small. apply Rabs_le_inv in R2 as [R3 R4].
      destruct (IH fuel (f_sub c len)) as (r & P1 & P2 & P3 & k & P4); [lia|lia|exact S2| |].
      + split.
        * rewrite S1. rewrite <- (rnd_num x_min). apply rnd_le. lra.
        * rewrite S_INR in B. lra.
      + exists r. cbn [loop_down]. rewrite E. split; [exact P1|]. split; [exact P2|]. split; [exact P3|]. exists (k - 1)%Z.
        rewrite minus_IZR, S_INR.
        replace (num r - (num c + (IZR k - 1) * L)) with ((num r - (num (f_sub c len) + IZR k * L)) + (num (f_sub c len) - (num c - L))) by ring.
        eapply Rle_trans; [apply Rabs_triang|]. assert (Rabs (num (f_sub c len) - (num c - L)) <= u * M) by (apply Rabs_le; lra). lra.
  Qed.

  Lemma up_ok : rnd (m + L) = m + L -> forall n fuel c, (n <= fuel)%nat -> (n <= 38)%nat -> is_num c ->
    m - INR n * (L / 2) <= num c -> num c <= m + 19 * L ->
    exists r, loop_up fuel x_min len c = Some r /\ is_num r /\ m <= num r <= m + 19 * L /\
      exists k, Rabs (num r - (num c + IZR k * L)) <= INR n * (u * M).
  Proof.
    intros EM. induction n as [|n IH]; intros fuel c F N C B B2.
    - exists c. change (INR 0) with 0 in *. assert (E : Bltb c x_min = false) by (apply ltb_false; [assumption..|lra]).
      split; [destruct fuel; cbn [loop_up]; now rewrite E|]. split; [exact C|]. split; [lra|]. exists 0%Z.
      replace (num c - (num c + 0 * L)) with 0 by ring. rewrite Rabs_R0. lra.
    - destruct (Bltb c x_min) eqn:E.
      2:{ exists c. split; [destruct fuel; cbn [loop_up]; now rewrite E|]. split; [exact C|]. apply ltb_false in E; [|assumption..].
          split; [lra|]. exists 0%Z. replace (num c - (num c + 0 * L)) with 0 by ring. rewrite Rabs_R0.
          apply Rmult_le_pos; [apply pos_INR|apply err_pos]. }
      destruct fuel as [|fuel]; [lia|]. pose proof E as E'. apply ltb_num in E'; [|assumption..].
      assert (NB : INR (S n) <= 38) by (replace 38 with (INR 38) by (simpl; lra); now apply le_INR).
      assert (U : m - 19 * L <= num c) by nra.
      assert (A : Rabs (num c + L) <= M).
      { pose proof (Rle_abs m). pose proof (Rle_abs (- m)). rewrite Rabs_Ropp in *. apply Rabs_le. split; lra. }
      destruct (add_ok c len C Xl) as [S1 S2].
      { apply (big_bound L m); try assumption. lra. }
      pose proof (rnd_sum c len) as R1. rewrite <- S1 in R1.
      assert (R2 : Rabs (num (f_add c len) - (num c + L)) <= u * M).
      { eapply Rle_trans; [exact R1|]. apply Rmult_le_compat_l; [apply bpow_ge_0|exact A]. }
      pose proof err_small. apply Rabs_le_inv in R2 as [R3 R4].
      destruct (IH fuel (f_add c len)) as (r & P1 & P2 & P3 & k & P4); [lia|lia|exact S2| | |].
      + rewrite S_INR in B. lra.
      + apply Rle_trans with (m + L); [|lra]. rewrite S1, <- EM. apply rnd_le. lra.
      + exists r. cbn [loop_up]. rewrite E. split; [exact P1|]. split; [exact P2|]. split; [exact P3|]. exists (k + 1)%Z.
        rewrite plus_IZR, S_INR.
        replace (num r - (num c + (IZR k + 1) * L)) with ((num r - (num (f_add c len) + IZR k * L)) + (num (f_add c len) - (num c + L))) by ring.
        eapply Rle_trans; [apply Rabs_triang|]. assert (Rabs (num (f_add c len) - (num c + L)) <= u * M) by (apply Rabs_le; lra). lra.
  Qed.

  (** lines 107-113, from the coordinate relative to x_min *)
  Lemma loops_ok x_max c0 fuel : is_num x_max -> num x_max = m + L -> is_num c0 -> Rabs (num c0) <= 16 * L -> (38 <= fuel)%nat ->
    exists r, match loop_up fuel x_min len (f_add c0 x_min) with None => None | Some c => loop_down fuel x_max len c end = Some r /\
      is_num r /\ m <= num r < m + L /\ exists k, Rabs (num r - (num c0 + m + IZR k * L)) <= 77 * (u * M).
  Proof.
    intros XM EM C B F. pose proof (Rle_abs m) as A1. pose proof (Rle_abs (- m)) as A2. rewrite Rabs_Ropp in A2.
    assert (A : Rabs (num c0 + m) <= M) by (eapply Rle_trans; [apply Rabs_triang|]; lra).
    destruct (add_ok c0 x_min C Xm) as [S1 S2]; [apply (big_bound L m); try assumption; lra|].
    pose proof (rnd_sum c0 x_min) as R1. rewrite <- S1 in R1.
    assert (R2 : Rabs (num (f_add c0 x_min) - (num c0 + m)) <= u * M).
    { eapply Rle_trans; [exact R1|]. apply Rmult_le_compat_l; [apply bpow_ge_0|exact A]. }
    pose proof err_small. pose proof R2 as R3. apply Rabs_le_inv in R3 as [R3 R4]. apply Rabs_le_inv in B as [B1 B2].
    assert (EX : rnd (m + L) = m + L) by (rewrite <- EM; apply rnd_num).
    assert (N38 : INR 38 = 38) by (simpl; lra).
    destruct (up_ok EX 38 fuel (f_add c0 x_min) F (le_n _) S2) as (c1 & P1 & P2 & P3 & k1 & P4); [rewrite N38; lra|lra|].
    rewrite P1. destruct (down_ok x_max XM EM 38 fuel c1 F (le_n _) P2) as (r & Q1 & Q2 & Q3 & k2 & Q4); [rewrite N38; lra|].
    exists r. split; [exact Q1|]. split; [exact Q2|]. split; [exact Q3|]. exists (k1 + k2)%Z. rewrite plus_IZR.
    replace (num r - (num c0 + m + (IZR k1 + IZR k2) * L)) with
      ((num r - (num c1 + IZR k2 * L)) + ((num c1 - (num (f_add c0 x_min) + IZR k1 * L)) + (num (f_add c0 x_min) - (num c0 + m)))) by ring.
    eapply Rle_trans; [apply Rabs_triang|]. rewrite N38 in *.
    apply Rle_trans with (38 * (u * M) + (38 * (u * M) + u * M)); [|lra]. apply Rplus_le_compat; [exact Q4|].
    eapply Rle_trans; [apply Rabs_triang|]. now apply Rplus_le_compat.
  Qed.
End Loops.
