(** The moments of the equilibria. *)
From Coquelicot Require Import Coquelicot.
From Verif Require Import Lib XVxModel XVxSpec XVxProofs MxwModel MxwSpec MxwGauss.
Open Scope R_scope.

(** ** decay *)
Lemma exp_pow_nat x n : exp x ^ n = exp (INR n * x).
Proof.
  induction n as [|n IH]; [cbn; rewrite Rmult_0_l, exp_0; reflexivity|]. cbn [pow]. rewrite IH, <- exp_plus. f_equal. rewrite S_INR. ring.
Qed.
Lemma exp_power n y : 0 <= y -> y ^ n <= INR n ^ n * exp y.
Proof.
  intros H. destruct n as [|n].
  - cbn. rewrite Rmult_1_l. rewrite <- exp_0. destruct H as [H| <-]; [left; apply exp_increasing; exact H|right; reflexivity].
  - assert (N : 0 < INR (S n)) by (apply lt_0_INR; lia). replace (exp y) with (exp (y / INR (S n)) ^ S n).
    + rewrite <- Rpow_mult_distr. apply pow_incr. split; [exact H|]. assert (y / INR (S n) <= exp (y / INR (S n))).
      { destruct (Req_dec (y / INR (S n)) 0) as [->|Q]; [left; apply exp_pos|]. pose proof (exp_ineq1 (y / INR (S n)) Q). lra. }
      replace y with (INR (S n) * (y / INR (S n))) at 1 by (field; lra). apply Rmult_le_compat_l; lra.
    + rewrite exp_pow_nat. f_equal. field. lra.
Qed.
Lemma decay n eps : 0 < eps -> exists M, 0 < M /\ forall y, M <= y -> y ^ n * exp (- y) < eps.
Proof.
  intros E. set (K := INR (S n) ^ S n). assert (KP : 0 < K) by (apply pow_lt; apply lt_0_INR; lia). exists (1 + K / eps). assert (Q : 0 < K / eps) by (apply Rdiv_lt_0_compat; assumption).
  split; [lra|]. intros y Hy. pose proof (exp_power (S n) y ltac:(lra)) as P. fold K in P. cbn [pow] in P. pose proof (exp_pos y) as X. rewrite exp_Ropp.
  apply (Rmult_lt_reg_r (y * exp y)); [apply Rmult_lt_0_compat; lra|]. replace (y ^ n * / exp y * (y * exp y)) with (y * y ^ n) by (field; lra).
  eapply Rle_lt_trans; [exact P|]. rewrite <- Rmult_assoc. apply Rmult_lt_compat_r; [exact X|]. assert (K = eps * (K / eps)) by (field; lra). nra.
Qed.
Lemma gauss_decay T k eps : 0 < T -> 0 < eps -> exists M, 0 < M /\ forall w, M <= Rabs w -> Rabs (w ^ k * exp (- w * w / (2 * T))) < eps.
Proof.
  intros HT He. assert (C : 0 < (2 * T) ^ k) by (apply pow_lt; lra). destruct (decay k (eps / (2 * T) ^ k)) as (M & MP & HM); [apply Rdiv_lt_0_compat; lra|].
  exists (1 + 2 * T * M). assert (0 < 2 * T * M) by (apply Rmult_lt_0_compat; lra). split; [lra|]. intros w Hw.
  set (y := w * w / (2 * T)). assert (W : w * w = Rabs w * Rabs w) by (rewrite <- Rabs_mult, Rabs_pos_eq; [reflexivity|nra]).
  assert (Y : M <= y). { unfold y. apply (Rmult_le_reg_r (2 * T)); [lra|]. unfold Rdiv. rewrite Rmult_assoc, Rinv_l, Rmult_1_r by lra. rewrite W. nra. }
  specialize (HM y Y). replace (- w * w / (2 * T)) with (- y) by (unfold y; field; lra). rewrite Rabs_mult, (Rabs_pos_eq (exp _)) by (left; apply exp_pos). rewrite <- RPow_abs.
  assert (P : Rabs w ^ k <= (2 * T) ^ k * y ^ k).
  { rewrite <- Rpow_mult_distr. replace (2 * T * y) with (Rabs w * Rabs w) by (rewrite <- W; unfold y; field; lra). apply pow_incr. split; [apply Rabs_pos|]. nra. }
  pose proof (exp_pos (- y)). apply (Rle_lt_trans _ ((2 * T) ^ k * (y ^ k * exp (- y)))); [nra|]. replace eps with ((2 * T) ^ k * (eps / (2 * T) ^ k)) by (field; lra).
  apply Rmult_lt_compat_l; assumption.
Qed.

(** ** moments of a Gaussian *)
Lemma moment_derive V T k v : 0 < T -> is_derive (fun v => - T * ((v - V) ^ k * gaussian V T v)) v ((v - V) ^ S k * gaussian V T v - T * INR k * ((v - V) ^ pred k * gaussian V T v)).
Proof.
  intros HT. unfold gaussian. auto_derive; [exact I|]. replace (- (v + - V) * (v + - V) * / (2 * T)) with (- (v - V) * (v - V) / (2 * T)) by (unfold Rdiv; ring).
  replace (v + - V) with (v - V) by ring. set (E := exp _). cbn [pow]. field. lra.
Qed.
Lemma poly_gauss_cont V T k v : 0 < T -> continuous (fun v => (v - V) ^ k * gaussian V T v) v.
Proof. intros H. apply @ex_derive_continuous. unfold gaussian. auto_derive. exact I. Qed.
Lemma moment_interval V T k a b : 0 < T -> RInt (fun v => (v - V) ^ S k * gaussian V T v) a b =
  T * INR k * RInt (fun v => (v - V) ^ pred k * gaussian V T v) a b - T * ((b - V) ^ k * gaussian V T b - (a - V) ^ k * gaussian V T a).
Proof.
  intros HT. pose proof (RInt_primitive (fun v => - T * ((v - V) ^ k * gaussian V T v)) (fun v => (v - V) ^ S k * gaussian V T v - T * INR k * ((v - V) ^ pred k * gaussian V T v)) a b) as P.
  assert (L : RInt (fun v => (v - V) ^ S k * gaussian V T v - T * INR k * ((v - V) ^ pred k * gaussian V T v)) a b =
    RInt (fun v => (v - V) ^ S k * gaussian V T v) a b + - (T * INR k) * RInt (fun v => (v - V) ^ pred k * gaussian V T v) a b).
  { rewrite <- RInt_scalR by (apply poly_gauss_int; exact HT). rewrite <- RInt_plusR.
    - apply RInt_extR. intros. ring.
    - apply poly_gauss_int; exact HT.
    - apply (ex_RInt_scal (V := R_NormedModule) (fun v => (v - V) ^ pred k * gaussian V T v)). apply poly_gauss_int; exact HT. }
  rewrite L in P. assert (Q := P (fun v => moment_derive V T k v HT)).
  assert (C : forall x, continuous (fun v => (v - V) ^ S k * gaussian V T v - T * INR k * ((v - V) ^ pred k * gaussian V T v)) x).
  { intros x. apply (continuous_minus (V := R_NormedModule) (fun v => (v - V) ^ S k * gaussian V T v)); [apply poly_gauss_cont; exact HT|].
    apply (continuous_scal_r (V := R_NormedModule) (T * INR k) (fun v => (v - V) ^ pred k * gaussian V T v)). apply poly_gauss_cont; exact HT. }
  specialize (Q C). cbv beta in Q. clear P L C. revert Q. generalize (RInt (fun v => (v - V) ^ S k * gaussian V T v) a b : R). generalize (RInt (fun v => (v - V) ^ pred k * gaussian V T v) a b : R).
  generalize ((b - V) ^ k * gaussian V T b) ((a - V) ^ k * gaussian V T a). intros p q B A Q. lra.
Qed.
Lemma boundary V T k eps : 0 < T -> 0 < eps -> exists M, forall a b, a <= - M -> M <= b -> Rabs (T * ((b - V) ^ k * gaussian V T b - (a - V) ^ k * gaussian V T a)) < eps.
Proof.
  intros HT He. destruct (gauss_decay T k (eps / (2 * T)) HT) as (M & MP & HM); [apply Rdiv_lt_0_compat; lra|]. exists (M + Rabs V). intros a b Ha Hb.
  pose proof (Rle_abs V). pose proof (Rle_abs (- V)). rewrite Rabs_Ropp in *.
  assert (HB : M <= Rabs (b - V)) by (rewrite Rabs_pos_eq; lra). assert (HA : M <= Rabs (a - V)) by (rewrite Rabs_left1; lra).
  pose proof (HM _ HB) as B1. pose proof (HM _ HA) as A1. fold (gaussian V T b) in B1. fold (gaussian V T a) in A1.
  rewrite Rabs_mult, (Rabs_pos_eq T) by lra. replace eps with (T * (eps / (2 * T) + eps / (2 * T))) by (field; lra). apply Rmult_lt_compat_l; [exact HT|].
  unfold Rminus at 1. eapply Rle_lt_trans; [apply Rabs_triang|]. rewrite Rabs_Ropp. lra.
Qed.
Lemma gauss_moments V T : 0 < T -> forall k, whole_line (fun v => (v - V) ^ k * gaussian V T v) (sqrt (2 * PI * T) * normal_moment T k).
Proof.
  intros HT. assert (TWO : forall k, whole_line (fun v => (v - V) ^ k * gaussian V T v) (sqrt (2 * PI * T) * normal_moment T k) /\
      whole_line (fun v => (v - V) ^ S k * gaussian V T v) (sqrt (2 * PI * T) * normal_moment T (S k))); [|intros k; exact (proj1 (TWO k))].
  induction k as [|k [IH1 IH2]].
  - split.
    + apply (whole_ext (gaussian V T)); [intros; cbn; ring|]. cbn [normal_moment]. rewrite Rmult_1_r. apply gauss_whole. exact HT.
    + cbn [normal_moment]. rewrite Rmult_0_r. split; [intros; apply poly_gauss_int; exact HT|]. intros eps He. destruct (boundary V T 0 eps HT He) as (M & HM). exists M. intros a b Ha Hb.
      rewrite moment_interval by exact HT. cbn [INR]. specialize (HM a b Ha Hb). set (B := T * ((b - V) ^ 0 * gaussian V T b - (a - V) ^ 0 * gaussian V T a)) in *.
      generalize (RInt (fun v : R => (v - V) ^ pred 0 * gaussian V T v) a b : R). intros I0. replace (T * 0 * I0 - B - 0) with (- B) by ring. rewrite Rabs_Ropp. exact HM.
  - split; [exact IH2|]. change (normal_moment T (S (S k))) with (T * INR (S k) * normal_moment T k). split; [intros; apply poly_gauss_int; exact HT|]. intros eps He.
    destruct (boundary V T (S k) (eps / 2) HT ltac:(lra)) as (M & HM). destruct IH1 as [_ IH].
    pose proof (lt_0_INR (S k) ltac:(lia)) as NK. assert (TP : 0 < T * INR (S k)) by (apply Rmult_lt_0_compat; assumption).
    assert (EP : 0 < eps / (2 * (T * INR (S k)))) by (apply Rdiv_lt_0_compat; lra). destruct (IH _ EP) as (M' & HM').
    exists (Rmax M M'). intros a b Ha Hb. assert (M <= Rmax M M') by apply Rmax_l. assert (M' <= Rmax M M') by apply Rmax_r.
    specialize (HM a b ltac:(lra) ltac:(lra)). specialize (HM' a b ltac:(lra) ltac:(lra)). rewrite moment_interval by exact HT. cbn [pred]. revert HM'. generalize (RInt (fun v => (v - V) ^ k * gaussian V T v) a b : R). intros I0 HM'.
    set (B := T * ((b - V) ^ S k * gaussian V T b - (a - V) ^ S k * gaussian V T a)) in *. set (c := T * INR (S k)) in *. set (s := sqrt (2 * PI * T)) in *.
    replace (c * I0 - B - s * (c * normal_moment T k)) with (c * (I0 - s * normal_moment T k) + - B) by ring. eapply Rle_lt_trans; [apply Rabs_triang|]. rewrite Rabs_Ropp, Rabs_mult, (Rabs_pos_eq c) by lra.
    assert (c * Rabs (I0 - s * normal_moment T k) < c * (eps / (2 * c))) by (apply Rmult_lt_compat_l; assumption). replace (c * (eps / (2 * c))) with (eps / 2) in * by (field; lra). lra.
Qed.

(** ** the Maxwellian of geometryXVx *)
Lemma maxwellian_gauss n T V v : maxwellian n T V v = n / sqrt (2 * PI * T) * gaussian V T v.
Proof. unfold maxwellian, gaussian. cbv zeta. unfold Rdiv. ring. Qed.
Lemma root_pos T : 0 < T -> 0 < sqrt (2 * PI * T).
Proof. intros. apply sqrt_lt_R0. pose proof PI_RGT_0. apply Rmult_lt_0_compat; [lra|assumption]. Qed.
Lemma maxwellian_moments n T V : 0 < T -> forall k, whole_line (fun v => (v - V) ^ k * maxwellian n T V v) (n * normal_moment T k).
Proof.
  intros HT k. pose proof (root_pos T HT). pose proof (whole_scal (n / sqrt (2 * PI * T)) _ _ (gauss_moments V T HT k)) as W.
  replace (n * normal_moment T k) with (n / sqrt (2 * PI * T) * (sqrt (2 * PI * T) * normal_moment T k)) by (field; lra).
  revert W. apply whole_ext. intros v. rewrite maxwellian_gauss. ring.
Qed.
Lemma maxwellian_first n T V : 0 < T ->
  whole_line (maxwellian n T V) n /\ whole_line (fun v => v * maxwellian n T V v) (n * V) /\ whole_line (fun v => (v - V) ^ 2 * maxwellian n T V v) (n * T) /\
  whole_line (fun v => v ^ 2 * maxwellian n T V v) (n * (T + V ^ 2)).
Proof.
  intros HT. pose proof (maxwellian_moments n T V HT 0) as M0. pose proof (maxwellian_moments n T V HT 1) as M1. pose proof (maxwellian_moments n T V HT 2) as M2.
  cbn [normal_moment INR] in *. rewrite Rmult_1_r in M0. rewrite Rmult_0_r in M1. replace (n * (T * 1 * 1)) with (n * T) in M2 by ring.
  apply (whole_ext _ (maxwellian n T V)) in M0; [|intros; cbn; ring]. split; [exact M0|]. split; [|split; [exact M2|]].
  - replace (n * V) with (0 + V * n) by ring. apply (whole_ext (fun v => (v - V) ^ 1 * maxwellian n T V v + V * maxwellian n T V v)); [intros; cbn; ring|].
    apply whole_plus; [exact M1|apply whole_scal; exact M0].
  - replace (n * (T + V ^ 2)) with (n * T + (2 * V * 0 + V ^ 2 * n)) by ring.
    apply (whole_ext (fun v => (v - V) ^ 2 * maxwellian n T V v + (2 * V * ((v - V) ^ 1 * maxwellian n T V v) + V ^ 2 * maxwellian n T V v))); [intros; cbn; ring|].
    apply whole_plus; [exact M2|]. apply whole_plus; apply whole_scal; assumption.
Qed.
