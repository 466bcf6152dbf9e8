(** Sums over the quadrature points of a window of cells. *)
From Coq Require Import ZifyBool.
From Verif Require Import Lib DerivModel QuadModel FemModel FemSolve QuadProofs OnionEval AdvLagrange PspModel PspProofs PpfModel PpfSpec PpfRows PpfPattern PpfCsr PpfBasis.
Open Scope R_scope.

Lemma Rsum_win n a w (F : nat -> R) : (a + w <= n)%nat -> (forall i, (i < n)%nat -> ~ (a <= i < a + w)%nat -> F i = 0) ->
  Rsum n F = Rsum w (fun k => F (a + k)%nat).
Proof.
  intros H Z. replace n with (a + (n - a))%nat by lia. rewrite Rsum_app. rewrite (Rsum_zero a) by (intros i Hi; apply Z; lia).
  rewrite Rplus_0_l. rewrite (Rsum_cut (n - a) w); [reflexivity|lia|]. intros i Hi. apply Z; lia.
Qed.
Lemma mod_once n x : (x < 2 * n)%nat -> (x mod n = if x <? n then x else x - n)%nat.
Proof.
  intros H. destruct (x <? n)%nat eqn:E; [apply Nat.mod_small; lia|]. replace x with (x - n + 1 * n)%nat at 1 by lia.
  rewrite Nat.mod_add, Nat.mod_small by lia. reflexivity.
Qed.
(** the indices s, s+1, ..., s+w-1 modulo n *)
Lemma Rsum_cyclic_win n s w (F : nat -> R) : (s < n)%nat -> (w <= n)%nat ->
  (forall i, (i < n)%nat -> ~ (exists k, (k < w)%nat /\ i = ((s + k) mod n)%nat) -> F i = 0) ->
  Rsum n F = Rsum w (fun k => F ((s + k) mod n)%nat).
Proof.
  intros Hs Hw Z. rewrite <- (cyclic_sum n F (Z.of_nat s)) by lia.
  rewrite (Rsum_ext n _ (fun k => F ((s + k) mod n)%nat)).
  2:{ intros i Hi. f_equal. rewrite <- Nat2Z.inj_add, <- Nat2Z.inj_mod, Nat2Z.id. f_equal. lia. }
  apply Rsum_cut; [exact Hw|]. intros i Hi. apply Z; [apply Nat.mod_upper_bound; lia|].
  intros [k [Hk E]]. revert E. rewrite !mod_once by lia. destruct (s + i <? n)%nat eqn:A; destruct (s + k <? n)%nat eqn:B; lia.
Qed.
Lemma sum_points_ok a0 na b0 nb f F : (forall i j, (i < na)%nat -> (j < nb)%nat -> f (a0 + Z.of_nat i)%Z (b0 + Z.of_nat j)%Z = Ok (F i j)) ->
  sum_points a0 (Z.of_nat na) b0 (Z.of_nat nb) f = Ok (Rsum na (fun i => Rsum nb (fun j => F i j))).
Proof.
  intros H. unfold sum_points. rewrite !Nat2Z.id.
  rewrite (for_res_ext na _ (fun (a : nat) (s : R) => let* x := Ok (Rsum nb (fun j => F a j)) in Ok (s + x))).
  - rewrite (for_res_sum na (fun a => Ok (Rsum nb (fun j => F a j))) (fun a => Rsum nb (fun j => F a j))) by reflexivity. f_equal. ring.
  - intros a s Ha. rewrite (for_res_sum nb (fun b => f (a0 + Z.of_nat a)%Z (b0 + Z.of_nat b)%Z) (F a)) by (intros j Hj; apply H; assumption). reflexivity.
Qed.

Section Win.
  Variables (p : pfem).
  Hypothesis HS : fem_sizes p.
  Notation d := (pf_d p).
  Notation nt := (pf_nt p).
  Notation z := Z.of_nat.
  Notation g := (d + 1)%nat.
  Notation cells := (b_cells (pf_r p)).
  Lemma nq_r : pf_nqr p = (cells * g)%nat.
  Proof. unfold pf_nqr. lia. Qed.
  Lemma nq_t : pf_nqt p = (nt * g)%nat.
  Proof. unfold pf_nqt. rewrite (H_dt p HS). unfold pf_nt, nbasis_t. lia. Qed.
  Lemma wrap_quad_ok a b : (a < cells * g)%nat -> (b < 2 * (nt * g))%nat -> wrap_quad p (z a) (z b) = z (b mod (nt * g)).
  Proof.
    intros Ha Hb. unfold wrap_quad, quad_contains. rewrite nq_r, nq_t. rewrite mod_once by exact Hb. destruct (b <? nt * g)%nat eqn:E.
    - replace (_ && _)%bool with true by lia. reflexivity.
    - replace (_ && _)%bool with false by lia. lia.
  Qed.
  (** the cells (s + k) mod nt, k < w, are those of the points (s g + k) mod (nt g), k < w g *)
  Lemma cell_window s w b : (s < nt)%nat -> (w <= nt)%nat -> (b < nt * g)%nat ->
    (exists k, (k < w * g)%nat /\ b = ((s * g + k) mod (nt * g))%nat) <-> exists k, (k < w)%nat /\ (b / g = (s + k) mod nt)%nat.
  Proof.
    intros Hs Hw Hb. destruct (div_lt b nt g Hb) as [H1 [H2 H3]]. set (cb := (b / g)%nat) in *. set (rb := (b mod g)%nat) in *.
    assert (B1 : (s * g < nt * g)%nat) by (apply Nat.mul_lt_mono_pos_r; lia).
    assert (B2 : (w * g <= nt * g)%nat) by (apply Nat.mul_le_mono_r; lia).
    split.
    - intros [k [Hk E]]. destruct (div_lt k w g Hk) as [K1 [K2 K3]]. set (ck := (k / g)%nat) in *. set (rk := (k mod g)%nat) in *.
      exists ck. split; [exact K1|]. rewrite mod_once by lia. rewrite mod_once in E by lia.
      assert (EE : b = if (s * g + k <? nt * g)%nat then ((s + ck) * g + rk)%nat else ((s + ck - nt) * g + rk)%nat).
      { rewrite E. destruct (s * g + k <? nt * g)%nat eqn:Q; [nia|]. assert (nt <= s + ck)%nat by nia. nia. }
      destruct (s * g + k <? nt * g)%nat eqn:Q.
      + assert (s + ck < nt)%nat by nia. replace (s + ck <? nt)%nat with true by lia.
        unfold cb. rewrite EE. destruct (div_mod_at g (s + ck) rk K2) as [A _]. exact A.
      + assert (nt <= s + ck)%nat by nia. replace (s + ck <? nt)%nat with false by lia.
        unfold cb. rewrite EE. destruct (div_mod_at g (s + ck - nt) rk K2) as [A _]. exact A.
    - intros [k [Hk E]]. exists (k * g + rb)%nat. split; [nia|]. rewrite mod_once by nia. rewrite mod_once in E by lia.
      rewrite H3. rewrite E. destruct (s + k <? nt)%nat eqn:Q.
      + replace (s * g + (k * g + rb) <? nt * g)%nat with true by nia. nia.
      + replace (s * g + (k * g + rb) <? nt * g)%nat with false by nia. nia.
  Qed.
  Lemma window_sum sr nr s w (F : nat -> nat -> R) : (sr + nr <= cells)%nat -> (s < nt)%nat -> (w <= nt)%nat ->
    (forall a b, (a < cells * g)%nat -> (b < nt * g)%nat -> ~ ((sr <= a / g < sr + nr)%nat /\ exists k, (k < w)%nat /\ (b / g = (s + k) mod nt)%nat) -> F a b = 0) ->
    Rsum (cells * g) (fun a => Rsum (nt * g) (fun b => F a b)) =
    Rsum (nr * g) (fun i => Rsum (w * g) (fun j => F (sr * g + i)%nat ((s * g + j) mod (nt * g))%nat)).
  Proof.
    intros H1 H2 H3 Z.
    rewrite (Rsum_win (cells * g) (sr * g) (nr * g)).
    - apply Rsum_ext. intros i Hi. assert (HA : (sr * g + i < cells * g)%nat) by (assert ((sr + nr) * g <= cells * g)%nat by (apply Nat.mul_le_mono_r; lia); lia).
      apply (Rsum_cyclic_win (nt * g) (s * g) (w * g) (fun b => F (sr * g + i)%nat b)).
      + apply Nat.mul_lt_mono_pos_r; lia.
      + apply Nat.mul_le_mono_r; lia.
      + intros b Hb NE. apply Z; [exact HA|exact Hb|]. intros [_ HW]. apply NE. apply cell_window; assumption.
    - assert ((sr + nr) * g <= cells * g)%nat by (apply Nat.mul_le_mono_r; lia). lia.
    - intros a Ha NE. apply Rsum_zero. intros b Hb. apply Z; [exact Ha|exact Hb|]. intros [HA _]. apply NE.
      destruct (div_lt a cells g Ha) as [A1 [A2 A3]]. nia.
  Qed.
  (** the sums computed by the code *)
  Lemma window_points sr nr s w f (F : nat -> nat -> R) : (sr + nr <= cells)%nat -> (s < nt)%nat -> (w <= nt)%nat ->
    (forall a b, (a < cells * g)%nat -> (b < nt * g)%nat -> ~ ((sr <= a / g < sr + nr)%nat /\ exists k, (k < w)%nat /\ (b / g = (s + k) mod nt)%nat) -> F a b = 0) ->
    (forall a b, (a < cells * g)%nat -> (b < nt * g)%nat -> (sr <= a / g < sr + nr)%nat -> (exists k, (k < w)%nat /\ (b / g = (s + k) mod nt)%nat) -> f (z a) (z b) = Ok (F a b)) ->
    sum_points (z sr * z g) (z nr * z g) (z s * z g) (z w * z g) (fun a b => f a (wrap_quad p a b)) =
    Ok (Rsum (cells * g) (fun a => Rsum (nt * g) (fun b => F a b))).
  Proof.
    intros H1 H2 H3 Z E. rewrite (window_sum sr nr s w F H1 H2 H3 Z). rewrite <- !Nat2Z.inj_mul. apply sum_points_ok. intros i j Hi Hj.
    assert (H4 : ((sr + nr) * g <= cells * g)%nat) by (apply Nat.mul_le_mono_r; lia). assert (H5 : (s * g < nt * g)%nat) by (apply Nat.mul_lt_mono_pos_r; lia).
    assert (H6 : (w * g <= nt * g)%nat) by (apply Nat.mul_le_mono_r; lia).
    assert (HA : (sr * g + i < cells * g)%nat) by lia.
    rewrite <- !Nat2Z.inj_add. rewrite wrap_quad_ok by lia. assert (HB : ((s * g + j) mod (nt * g) < nt * g)%nat) by (apply Nat.mod_upper_bound; lia).
    apply E; [exact HA|exact HB| |].
    - destruct (div_lt i nr g Hi) as [I1 [I2 I3]]. rewrite I3. replace (sr * g + (i / g * g + i mod g))%nat with ((sr + i / g) * g + i mod g)%nat by ring.
      destruct (div_mod_at g (sr + i / g) (i mod g) I2) as [A _]. rewrite A. lia.
    - apply cell_window; try assumption. exists j. split; [exact Hj|reflexivity].
  Qed.
End Win.
