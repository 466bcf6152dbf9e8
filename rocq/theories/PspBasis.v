(** Facts about B-splines (Cox - de Boor) used by C72 - C76. *)
From Verif Require Import Lib LagDerivSpec PspModel PspSpec.
Open Scope R_scope.

Lemma cdb_out t m p j x : (p < j)%nat -> cdb t m p j x = 0.
Proof.
  revert j. induction p as [|q IH]; intros j H; cbn [cdb].
  - replace (j =? 0)%nat with false by (symmetry; apply Nat.eqb_neq; lia). reflexivity.
  - destruct j as [|j']; [lia|]. rewrite (IH j') by lia. rewrite (IH (S j')) by lia. ring.
Qed.
Lemma cdb_sum t m p x : Rsum (p + 1) (fun j => cdb t m p j x) = 1.
Proof.
  induction p as [|q IH]; [cbn; ring|]. cbn [cdb]. rewrite Rsum_plus.
  replace (S q + 1)%nat with (S (q + 1)) by lia. rewrite Rsum_first. cbn [Rsum].
  rewrite (cdb_out t m q (q + 1)) by lia. rewrite Rmult_0_r, Rplus_0_r, Rplus_0_l. rewrite <- Rsum_plus.
  transitivity (Rsum (q + 1) (fun j => cdb t m q j x)); [|exact IH]. apply Rsum_ext. intros j Hj. ring.
Qed.
Lemma weight_range t m p j x : (1 <= j <= p)%nat -> (p <= m)%nat -> (forall a b, (a <= b <= m + p)%nat -> t a <= t b) ->
  t m < t (m + 1)%nat -> t m <= x <= t (m + 1)%nat -> 0 <= cdb_weight t m p j x <= 1.
Proof.
  intros Hj Hm HM Hc Hx. unfold cdb_weight.
  assert (A : t (m + j - p)%nat <= t m) by (apply HM; lia). assert (B : t (m + 1)%nat <= t (m + j)%nat) by (apply HM; lia).
  split.
  - apply Rmult_le_pos; [lra|]. left; apply Rinv_0_lt_compat; lra.
  - apply Rmult_le_reg_r with (t (m + j)%nat - t (m + j - p)%nat); [lra|]. unfold Rdiv. rewrite Rmult_assoc, Rinv_l by lra. lra.
Qed.
Lemma cdb_nonneg t m p j x : (p <= m)%nat -> (forall a b, (a <= b <= m + p)%nat -> t a <= t b) ->
  t m < t (m + 1)%nat -> t m <= x <= t (m + 1)%nat -> 0 <= cdb t m p j x.
Proof.
  intros Hm HM Hc Hx. revert j. induction p as [|q IH]; intros j; cbn [cdb].
  - destruct (j =? 0)%nat; lra.
  - assert (IH' : forall j, 0 <= cdb t m q j x) by (intros; apply IH; [lia|intros; apply HM; lia]). clear IH.
    assert (A : 0 <= match j with O => 0 | S j' => cdb_weight t m (S q) j x * cdb t m q j' x end).
    { destruct j as [|j']; [lra|]. destruct (le_lt_dec (S j') (S q)) as [L|L].
      - apply Rmult_le_pos; [|apply IH']. apply weight_range; auto; lia.
      - rewrite (cdb_out t m q j') by lia. lra. }
    assert (B : 0 <= (1 - cdb_weight t m (S q) (S j) x) * cdb t m q j x).
    { destruct (le_lt_dec j q) as [L|L].
      - apply Rmult_le_pos; [|apply IH']. pose proof (weight_range t m (S q) (S j) x ltac:(lia) Hm HM Hc Hx). lra.
      - rewrite (cdb_out t m q j) by lia. lra. }
    lra.
Qed.
(** On the first cell of a clamped knot sequence the j-th B-spline vanishes like x^j *)
Lemma cdb_clamped t d p j x : (p <= d)%nat -> (forall i, (i <= d)%nat -> t i = 0) -> (forall a b, (a <= b <= d + p)%nat -> t a <= t b) ->
  0 < t (d + 1)%nat -> 0 <= x <= t (d + 1)%nat -> 0 <= cdb t d p j x <= 2 ^ p * (x / t (d + 1)%nat) ^ j.
Proof.
  intros Hp H0 HM Hh Hx. set (h := t (d + 1)%nat) in *.
  assert (Q : 0 <= x / h <= 1).
  { split; [apply Rmult_le_pos; [lra|left; now apply Rinv_0_lt_compat]|].
    apply Rmult_le_reg_r with h; [lra|]. unfold Rdiv. rewrite Rmult_assoc, Rinv_l by lra. lra. }
  split.
  { apply cdb_nonneg; auto; rewrite ?H0 by lia; fold h; lra. }
  revert j. induction p as [|q IH]; intros j; cbn [cdb].
  - destruct j as [|j]; cbn [Nat.eqb pow]; [lra|]. rewrite Rmult_1_l. apply Rmult_le_pos; [lra|]. apply pow_le; lra.
  - assert (IH' : forall j, cdb t d q j x <= 2 ^ q * (x / h) ^ j) by (intros; apply IH; [lia|intros; apply HM; lia]). clear IH.
    assert (NN : forall j, 0 <= cdb t d q j x).
    { intros; apply cdb_nonneg; [lia|intros; apply HM; lia| |]; rewrite ?H0 by lia; fold h; lra. }
    assert (W : forall i, (1 <= i <= S q)%nat -> 0 <= cdb_weight t d (S q) i x <= x / h).
    { intros i Hi. unfold cdb_weight. rewrite (H0 (d + i - S q)%nat) by lia. rewrite !Rminus_0_r.
      assert (h <= t (d + i)%nat) by (apply HM; lia). unfold Rdiv. split.
      - apply Rmult_le_pos; [lra|]. left; apply Rinv_0_lt_compat; lra.
      - apply Rmult_le_compat_l; [lra|]. apply Rinv_le_contravar; lra. }
    assert (A : match j with O => 0 | S j' => cdb_weight t d (S q) j x * cdb t d q j' x end <= 2 ^ q * (x / h) ^ j).
    { destruct j as [|j'].
      - cbn [pow]. rewrite Rmult_1_r. apply pow_le; lra.
      - destruct (le_lt_dec (S j') (S q)) as [L|L].
        + pose proof (W (S j') ltac:(lia)) as W1. cbn [pow].
          replace (2 ^ q * (x / h * (x / h) ^ j')) with (x / h * (2 ^ q * (x / h) ^ j')) by ring.
          apply Rmult_le_compat; try lra; auto.
        + rewrite (cdb_out t d q j') by lia. rewrite Rmult_0_r. apply Rmult_le_pos; apply pow_le; lra. }
    assert (B : (1 - cdb_weight t d (S q) (S j) x) * cdb t d q j x <= 2 ^ q * (x / h) ^ j).
    { destruct (le_lt_dec j q) as [L|L].
      - pose proof (W (S j) ltac:(lia)) as W1. specialize (IH' j). specialize (NN j).
        assert ((1 - cdb_weight t d (S q) (S j) x) * cdb t d q j x <= 1 * cdb t d q j x) by (apply Rmult_le_compat_r; lra). lra.
      - rewrite (cdb_out t d q j) by lia. rewrite Rmult_0_r. apply Rmult_le_pos; apply pow_le; lra. }
    cbn [pow]. lra.
Qed.

(** ** Derivatives *)
Lemma nth_derivative_0 f g x : nth_derivative 0 f g -> g x = f x.
Proof. intros [F [H0 [_ HG]]]. rewrite <- HG. apply H0. Qed.
Lemma nth_derivative_plus n f1 g1 f2 g2 : nth_derivative n f1 g1 -> nth_derivative n f2 g2 ->
  nth_derivative n (fun x => f1 x + f2 x) (fun x => g1 x + g2 x).
Proof.
  intros [F1 [A1 [B1 C1]]] [F2 [A2 [B2 C2]]]. exists (fun k x => F1 k x + F2 k x). split; [|split].
  - intros x. now rewrite A1, A2.
  - intros k x Hk. apply (derivable_pt_lim_plus (F1 k) (F2 k)); auto.
  - intros x. now rewrite C1, C2.
Qed.
Lemma nth_derivative_const n c g x : nth_derivative n (fun _ => c) g -> g x = if (n =? 0)%nat then c else 0.
Proof.
  intros [F [A [B C]]].
  assert (G : forall k, (k <= n)%nat -> forall x, F k x = if (k =? 0)%nat then c else 0).
  { induction k as [|k IH]; intros Hk y; [apply A|]. cbn [Nat.eqb].
    apply (uniqueness_limite (F k) y); [apply B; lia|].
    assert (E : derivable_pt_lim (fun _ => if (k =? 0)%nat then c else 0) y 0) by apply derivable_pt_lim_const.
    intros eps He. destruct (E eps He) as [d Hd]. exists d. intros h Hh1 Hh2. rewrite !IH by lia. apply Hd; auto. }
  rewrite <- C. apply G. lia.
Qed.
Lemma basis_sum b t n x c v : basis_values b t n x c v -> Rsum (b_deg b + 1) v = if (n =? 0)%nat then 1 else 0.
Proof.
  intros [Hc [Hx Hv]].
  assert (G : forall k, (k <= b_deg b + 1)%nat -> exists g,
    nth_derivative n (fun y => Rsum k (fun j => cdb t (b_deg b + c) (b_deg b) j y)) g /\ g x = Rsum k v).
  { induction k as [|k IH]; intros Hk.
    - exists (fun _ => if (n =? 0)%nat then 0 else 0). split; [|destruct (n =? 0)%nat; reflexivity].
      exists (fun _ _ => 0). split; [reflexivity|]. split; [intros; apply derivable_pt_lim_const|intros; destruct (n =? 0)%nat; reflexivity].
    - destruct IH as [g [Dg Eg]]; [lia|]. destruct (Hv k ltac:(lia)) as [gk [Dk Ek]].
      exists (fun y => g y + gk y). split; [apply (nth_derivative_plus n _ _ _ _ Dg Dk)|]. cbn [Rsum]. rewrite Eg, Ek. reflexivity. }
  destruct (G (b_deg b + 1)%nat ltac:(lia)) as [g [Dg Eg]]. rewrite <- Eg.
  apply (nth_derivative_const n 1 g x). destruct Dg as [F [A [B C]]]. exists F. split; [|split; auto].
  intros y. rewrite A. apply cdb_sum.
Qed.
Lemma basis_value_0 b t x c v j : basis_values b t 0 x c v -> (j <= b_deg b)%nat -> v j = cdb t (b_deg b + c) (b_deg b) j x.
Proof. intros [_ [_ Hv]] Hj. destruct (Hv j Hj) as [g [Dg ->]]. now apply nth_derivative_0. Qed.
Lemma basis_nonneg b t x c v j : bspline_space b t -> basis_values b t 0 x c v -> (j <= b_deg b)%nat -> 0 <= v j.
Proof.
  intros S HV Hj. rewrite (basis_value_0 b t x c v j HV Hj). destruct HV as [Hc [Hx _]].
  apply cdb_nonneg; auto; [lia|intros; apply (bs_mono b t S); lia|apply (bs_breaks b t S); auto].
Qed.
