(** The B-splines of one cell are linearly independent: a combination of the degree + 1 functions which vanishes
    at degree + 1 different points of the line has zero coefficients. *)
From Coq Require Import ZifyBool.
From Verif Require Import Lib LagrangeSpec LagrangeProofs PspModel PspSpec PspBasis PspJac PspExamples.
Open Scope R_scope.

Section Indep.
  Variables (t : nat -> R) (m : nat).
  Notation B q j x := (cdb t m q j x).
  (** knots *)
  Definition apart (p : nat) : Prop := (p <= m)%nat /\ (forall a b, (a <= b <= m + p)%nat -> t a <= t b) /\ t m < t (m + 1)%nat.
  Lemma apart_pos p j : apart p -> (1 <= j <= p)%nat -> 0 < t (m + j)%nat - t (m + j - p)%nat.
  Proof.
    intros [Hp [HM Hc]] Hj. assert (t (m + j - p)%nat <= t m) by (apply HM; lia). assert (t (m + 1)%nat <= t (m + j)%nat) by (apply HM; lia). lra.
  Qed.
  Lemma apart_pred q : apart (S q) -> apart q.
  Proof. intros [Hp [HM Hc]]. split; [lia|]. split; [intros a b H; apply HM; lia|exact Hc]. Qed.
  (** the coefficients one degree lower *)
  Definition lower (c : nat -> R) (q : nat) (x : R) (j : nat) : R := c (S j) * cdb_weight t m (S q) (S j) x + c j * (1 - cdb_weight t m (S q) (S j) x).
  Definition delta (c : nat -> R) (q j : nat) : R := cdb_slope t m (S q) (S j) * (c (S j) - c j).
  Lemma cdb_lower c q x : Rsum (S q + 1) (fun j => c j * B (S q) j x) = Rsum (q + 1) (fun j => lower c q x j * B q j x).
  Proof.
    cbn [cdb]. rewrite (Rsum_ext _ _ (fun j => c j * (match j with O => 0 | S j' => cdb_weight t m (S q) j x * B q j' x end) + c j * ((1 - cdb_weight t m (S q) (S j) x) * B q j x))) by (intros; ring).
    rewrite Rsum_plus. replace (S q + 1)%nat with (S (q + 1)) by lia. rewrite Rsum_first. cbn [Rsum].
    rewrite (cdb_out t m q (q + 1)) by lia. rewrite !Rmult_0_r, Rplus_0_r, Rplus_0_l. rewrite <- Rsum_plus. apply Rsum_ext. intros j Hj. unfold lower. ring.
  Qed.
  Lemma dcdb_out q : forall j n x, (q < j)%nat -> dcdb t m q j n x = 0.
  Proof.
    induction q as [|q IH]; intros j n x H; cbn [dcdb].
    - replace (j =? 0)%nat with false by lia. destruct (n =? 0)%nat; reflexivity.
    - destruct j as [|j]; [lia|]. rewrite !IH by lia. ring.
  Qed.
  Lemma dcdb_lower c q x : Rsum (S q + 1) (fun j => c j * dcdb t m (S q) j 1 x) = Rsum (q + 1) (fun j => lower c q x j * dcdb t m q j 1 x) + Rsum (q + 1) (fun j => delta c q j * B q j x).
  Proof.
    cbn [dcdb Nat.sub]. change (INR 1) with 1.
    rewrite (Rsum_ext _ _ (fun j => c j * (match j with O => 0 | S j' => cdb_weight t m (S q) j x * dcdb t m q j' 1 x + 1 * cdb_slope t m (S q) j * dcdb t m q j' 0 x end)
      + c j * ((1 - cdb_weight t m (S q) (S j) x) * dcdb t m q j 1 x - 1 * cdb_slope t m (S q) (S j) * dcdb t m q j 0 x))) by (intros; ring).
    rewrite Rsum_plus. replace (S q + 1)%nat with (S (q + 1)) by lia. rewrite Rsum_first. cbn [Rsum].
    rewrite !(dcdb_out q (q + 1)) by lia. rewrite !Rmult_0_r, Rminus_0_r, Rmult_0_r, Rplus_0_r, Rplus_0_l. rewrite <- Rsum_plus, <- Rsum_plus. apply Rsum_ext. intros j Hj. rewrite !dcdb_0. unfold lower, delta. ring.
  Qed.
  (** the derivative of a spline is a spline *)
  Lemma spline_slope p : apart p -> forall c x, Rsum (p + 1) (fun j => c j * dcdb t m p j 1 x) = INR p * Rsum p (fun j => delta c (p - 1) j * B (p - 1) j x).
  Proof.
    induction p as [|q IH]; intros HA c x; [cbn; ring|].
    rewrite dcdb_lower, (IH (apart_pred q HA)). rewrite S_INR. replace (S q - 1)%nat with q by lia. 
    rewrite Rmult_plus_distr_r, Rmult_1_l. f_equal; [|replace (q + 1)%nat with (S q) by lia; reflexivity]. destruct q as [|r]; [cbn; ring|]. replace (S r - 1)%nat with r by lia. f_equal.
    replace (S (S r)) with (S r + 1)%nat by lia. rewrite (cdb_lower (delta c (S r))). replace (S r) with (r + 1)%nat at 1 by lia. apply Rsum_ext. intros j Hj. f_equal.
    pose proof (apart_pos (S r) (S j) (apart_pred _ HA) ltac:(lia)) as P1. pose proof (apart_pos (S (S r)) (S j) HA ltac:(lia)) as P2. pose proof (apart_pos (S (S r)) (S (S j)) HA ltac:(lia)) as P3.
    unfold delta, lower, cdb_slope, cdb_weight. unfold delta, cdb_slope.
    replace (m + S (S j) - S (S r))%nat with (m + S j - S r)%nat in * by lia.
    field. repeat split; lra.
  Qed.
  Lemma cdb_poly p : apart p -> forall j, poly_fun (p + 1) (fun x => B p j x).
  Proof.
    induction p as [|q IH]; intros HA j.
    - cbn [cdb]. replace (0 + 1)%nat with 1%nat by lia. apply pf_const.
    - assert (W : forall i j', poly_fun (S q + 1) (fun x => cdb_weight t m (S q) i x * B q j' x)).
      { intros i j'. apply (pf_ext _ (fun x => / (t (m + i)%nat - t (m + i - S q)%nat) * (B q j' x * (x - t (m + i - S q)%nat)))); [intros x; unfold cdb_weight, Rdiv; ring|].
        apply pf_scal. replace (S q + 1)%nat with (S (q + 1)) by lia. apply (pf_lin (q + 1) _ (fun x => B q j' x)). apply IH, apart_pred, HA. }
      cbn [cdb]. apply (pf_add _ (fun x => match j with O => 0 | S j' => cdb_weight t m (S q) j x * B q j' x end) (fun x => (1 - cdb_weight t m (S q) (S j) x) * B q j x)).
      + destruct j; [apply pf_zero|apply W].
      + apply (pf_ext _ (fun x => B q j x + -1 * (cdb_weight t m (S q) (S j) x * B q j x))); [intros x; ring|].
        apply pf_add; [apply (pf_le (q + 1)); [lia|apply IH, apart_pred, HA]|]. apply (pf_scal _ (-1) (fun x => cdb_weight t m (S q) (S j) x * B q j x)). apply W.
  Qed.
  Lemma cdb_zero p : apart p -> forall c, (forall x, Rsum (p + 1) (fun j => c j * B p j x) = 0) -> forall j, (j <= p)%nat -> c j = 0.
  Proof.
    induction p as [|q IH]; intros HA c HZ.
    - intros j Hj. assert (j = 0)%nat by lia. subst j. specialize (HZ 0). cbn in HZ. lra.
    - assert (D : forall x, Rsum (S q + 1) (fun j => c j * dcdb t m (S q) j 1 x) = 0).
      { intros x. assert (D1 : derivable_pt_lim (fun y => Rsum (S q + 1) (fun j => c j * B (S q) j y)) x (Rsum (S q + 1) (fun j => c j * dcdb t m (S q) j 1 x))).
        { apply (deriv_sum (S q + 1) (fun j y => c j * B (S q) j y)). intros j _. apply (derivable_pt_lim_scal (fun y => B (S q) j y)).
          intros e He. destruct (dcdb_step t m (S q) j 0 x e He) as [dl Hd]. exists dl. intros h H1 H2. rewrite <- !dcdb_0. exact (Hd h H1 H2). }
        apply (uniqueness_limite (fun _ => 0) x).
        - intros e He. destruct (D1 e He) as [dl Hd]. exists dl. intros h H1 H2. specialize (Hd h H1 H2). cbv beta in Hd. rewrite !HZ in Hd. exact Hd.
        - apply derivable_pt_lim_const. }
      assert (E : forall j, (j <= q)%nat -> delta c q j = 0).
      { apply (IH (apart_pred q HA)). intros x. specialize (D x). rewrite (spline_slope _ HA) in D. replace (S q - 1)%nat with q in D by lia. replace (q + 1)%nat with (S q) by lia.
        apply Rmult_integral in D. destruct D as [D|D]; [|exact D]. rewrite S_INR in D. pose proof (pos_INR q). lra. }
      assert (C : forall j, (j <= S q)%nat -> c j = c 0%nat).
      { induction j as [|j IHj]; intros Hj; [reflexivity|]. rewrite <- IHj by lia. specialize (E j ltac:(lia)). unfold delta, cdb_slope in E.
        pose proof (apart_pos (S q) (S j) HA ltac:(lia)) as P. apply Rmult_integral in E. destruct E as [E|E]; [|lra]. pose proof (Rinv_0_lt_compat _ P). lra. }
      specialize (HZ 0). rewrite (Rsum_ext _ _ (fun j => c 0%nat * B (S q) j 0)) in HZ by (intros j Hj; rewrite C by lia; reflexivity). rewrite Rsum_scal, cdb_sum in HZ.
      intros j Hj. rewrite C by exact Hj. lra.
  Qed.
  Theorem cdb_independent p xs : apart p -> NoDup xs -> length xs = (p + 1)%nat -> forall c, (forall x, In x xs -> Rsum (p + 1) (fun j => c j * B p j x) = 0) -> forall j, (j <= p)%nat -> c j = 0.
  Proof.
    intros HA HN HL c HZ. apply (cdb_zero p HA). assert (P : poly_fun (p + 1) (fun x => Rsum (p + 1) (fun j => c j * B p j x))).
    { apply (pf_sum (p + 1) (p + 1) (fun j x => c j * B p j x)). intros j _. apply (pf_scal _ _ (fun x => B p j x)), cdb_poly, HA. }
    destruct P as [q [LQ HQ]]. intros x. rewrite HQ. apply (peval_roots (p + 1) q xs); auto. intros y Hy. rewrite <- HQ. apply HZ, Hy.
  Qed.
End Indep.
