(** Numbers of steps: exact and binary64 arithmetic; counterexamples. *)
From Coq Require Import Lia Lra ZArith List Reals.
From Flocq Require Import Core IEEE754.BinarySingleNaN.
From Verif Require Import RstSpec RestrictProofs RstProofs RstSched EdgeFloat GciExamples.
Import ListNotations.
Open Scope R_scope.

(** ** The polar executables *)
Theorem polar_exact (m q n : Z) T : (0 < m)%Z -> T * IZR m = IZR q -> (0 <= q)%Z -> polar_steps T (/ IZR m) = Ok n -> n = q /\ IZR n * / IZR m = T.
Proof.
  intros M E Q. unfold polar_steps. assert (P : 0 < IZR m) by (apply IZR_lt; lia).
  destruct (int_quotient 1 (/ IZR m)) as [u| | |] eqn:U; cbn [bind]; try discriminate.
  assert (u = m).
  { replace 1 with (IZR m * / IZR m) in U by (field; lra). revert U. apply quotient_exact. now apply Rinv_0_lt_compat. }
  subst u. intros N. apply c_int_value in N; [|rewrite E; apply IZR_le; lia]. rewrite E in N. destruct N as [_ [N1 N2]].
  assert (n = q). { apply le_IZR in N1. assert (IZR q < IZR (n + 1)) by (rewrite plus_IZR; lra). apply lt_IZR in H. lia. }
  subst n. split; [reflexivity|]. rewrite <- E. field. lra.
Qed.
Theorem polar_bounds T dt n : 0 < dt -> 0 <= T -> polar_steps T dt = Ok n ->
  (0 <= n)%Z /\ T - dt * (T + 1) < IZR n * dt <= T.
Proof.
  intros D H. unfold polar_steps. destruct (int_quotient 1 dt) as [u| | |] eqn:U; cbn [bind]; try discriminate.
  destruct (quotient_value 1 dt u D ltac:(lra) U) as [U0 [U1 U2]]. assert (0 <= IZR u) by (apply IZR_le; lia).
  intros N. apply c_int_value in N; [|now apply Rmult_le_pos]. destruct N as [N0 [N1 N2]]. split; [lia|].
  assert (A1 : IZR n * dt <= T * IZR u * dt) by (apply Rmult_le_compat_r; lra).
  assert (A2 : T * IZR u * dt < (IZR n + 1) * dt) by (apply Rmult_lt_compat_r; lra).
  assert (A3 : T * (IZR u * dt) <= T * 1) by (apply Rmult_le_compat_l; lra).
  assert (A4 : T * 1 <= T * ((IZR u + 1) * dt)) by (apply Rmult_le_compat_l; lra).
  lra.
Qed.
Lemma polar_total T dt : 0 < dt -> 0 <= T -> 1 < 2147483648 * dt -> T < 2147483648 * dt -> exists n, polar_steps T dt = Ok n.
Proof.
  intros D H L1 L2. unfold polar_steps. destruct (quotient_total 1 dt D ltac:(lra) L1) as (u & U & U0 & U1 & U2). rewrite U. cbn [bind].
  destruct (c_int_bounds (T * IZR u)) as (n & N & _); [|eauto]. split; [apply Rmult_le_pos; [lra|apply IZR_le; lia]|].
  assert (A3 : T * (IZR u * dt) <= T * 1) by (apply Rmult_le_compat_l; lra).
  apply Rmult_lt_reg_r with dt; [exact D|]. lra.
Qed.

(** ** int(a / b) in binary64 *)
Lemma fmt_Z z : (Z.abs z <= 2 ^ 53)%Z -> generic_format radix2 (FLT_exp (-1074) 53) (IZR z).
Proof.
  intros H. destruct (Z.eq_dec (Z.abs z) (2 ^ 53)) as [E|E].
  - assert (z = 1 * 2 ^ 53 \/ z = (-1) * 2 ^ 53)%Z as [->| ->] by lia; rewrite mult_IZR, pow2_bpow by lia; apply fmt_int; lia.
  - replace (IZR z) with (IZR z * bpow radix2 0) by (simpl; ring). apply fmt_int; lia.
Qed.
Theorem quotient_b64 x y n : 0 < B2R y -> is_finite x = true -> (0 <= n < 2 ^ 53)%Z -> IZR n * B2R y <= B2R x < (IZR n + 1) * B2R y ->
  int_quotient_b64 x y = n \/ (int_quotient_b64 x y = n + 1)%Z.
Proof.
  intros Y F N [B1 B2].
  assert (Q1 : IZR n <= B2R x / B2R y). { apply Rmult_le_reg_r with (B2R y); [exact Y|]. replace (B2R x / B2R y * B2R y) with (B2R x) by (field; lra). exact B1. }
  assert (Q2 : B2R x / B2R y <= IZR (n + 1)).
  { rewrite plus_IZR. apply Rmult_le_reg_r with (B2R y); [exact Y|]. replace (B2R x / B2R y * B2R y) with (B2R x) by (field; lra). lra. }
  pose proof (Bdiv_correct 53 1024 prec64_gt_0 prec64_lt_emax mode_NE x y ltac:(lra)) as D. cbv zeta in D.
  change (SpecFloat.fexp 53 1024) with (FLT_exp (-1074) 53) in D.
  set (r := round radix2 (FLT_exp (-1074) 53) (round_mode mode_NE) (B2R x / B2R y)) in *.
  assert (V : Valid_exp (FLT_exp (-1074) 53)) by (apply FLT_exp_valid; reflexivity).
  assert (R1 : IZR n <= r).
  { unfold r. apply round_ge_generic; [exact V|apply valid_rnd_round_mode|apply fmt_Z; lia|exact Q1]. }
  assert (R2 : r <= IZR (n + 1)).
  { unfold r. apply round_le_generic; [exact V|apply valid_rnd_round_mode|apply fmt_Z; lia|exact Q2]. }
  assert (Np : 0 <= IZR n) by (apply IZR_le; lia).
  rewrite Rlt_bool_true in D.
  2:{ rewrite Rabs_right by lra. apply Rle_lt_trans with (IZR (2 ^ 53)); [apply Rle_trans with (IZR (n + 1)); [exact R2|apply IZR_le; lia]|].
      rewrite pow2_bpow by lia. apply bpow_lt. lia. }
  destruct D as [D _]. unfold int_quotient_b64. change (B2R (b64_div x y) = r) in D.
  pose proof (Btrunc_correct 53 1024 prec64_lt_emax (b64_div x y)) as T. rewrite D in T.
  set (t := Btrunc (b64_div x y)) in *.
  assert (T' : t = Zfloor r).
  { apply eq_IZR. rewrite T. unfold round, F2R, scaled_mantissa, cexp, FIX_exp. simpl. rewrite !Rmult_1_r. f_equal. apply Ztrunc_floor. lra. }
  assert (n <= t)%Z by (rewrite T'; apply Zfloor_lub; exact R1).
  assert (t <= n + 1)%Z. { rewrite T'. apply le_IZR. apply Rle_trans with r; [apply Zfloor_lb|exact R2]. }
  lia.
Qed.
Theorem quotient_b64_exact x y n : 0 < B2R y -> is_finite x = true -> (0 <= n < 2 ^ 53)%Z -> B2R x = IZR n * B2R y ->
  int_quotient_b64 x y = n.
Proof.
  intros Y F N E. assert (Q : B2R x / B2R y = IZR n) by (rewrite E; field; lra).
  destruct (b64_div_ok x y) as [V _]; [lra|exact F|rewrite Q; apply fmt_Z; lia| |].
  { rewrite Q, Rabs_right by (apply Rle_ge, IZR_le; lia). apply Rlt_trans with (IZR (2 ^ 53)); [apply IZR_lt; lia|].
    rewrite pow2_bpow by lia. apply bpow_lt. lia. }
  unfold int_quotient_b64. apply eq_IZR. rewrite Btrunc_correct by reflexivity. rewrite V, Q.
  apply round_generic; [apply valid_rnd_ZR|]. apply generic_format_FIX. exists (Float radix2 n 0); [unfold F2R; simpl; ring|reflexivity].
Qed.
(** the double nearest to the decimal p / 10^k (k <= 22, p < 2^53: both are doubles) *)
Definition dec (p k : Z) : binary_float 53 1024 := b64_div (b64 p) (b64 (10 ^ k)).
Lemma b64_lost : int_quotient_b64 (dec 3 1) (dec 1 1) = 2%Z.
Proof. vm_compute. reflexivity. Qed.
Lemma b64_defaults : int_quotient_b64 (dec 25 2) (dec 125 3) = 2%Z /\ int_quotient_b64 (dec 4 1) (dec 1 1) = 4%Z /\
  int_quotient_b64 (dec 1 1) (dec 1 2) = 10%Z /\ int_quotient_b64 (dec 1 1) (dec 1 4) = 1000%Z /\
  int_quotient_b64 (b64 30) (dec 5 2) = 600%Z /\ int_quotient_b64 (b64 1) (dec 1 1) = 10%Z /\
  int_quotient_b64 (dec 24 2) (dec 12 2) = 2%Z.
Proof. vm_compute. repeat split. Qed.
(** deltat = 0: time_diag / (time_diag / nbiter) *)
Lemma b64_steady : int_quotient_b64 (b64 1) (b64_div (b64 1) (b64 93)) = 92%Z.
Proof. vm_compute. reflexivity. Qed.

(** ** Counterexamples *)
Definition drift : R -> R -> R -> R := fun f _ t => f + t.
Definition pot : R -> R * R := fun f => (f, f).
Notation dsession := (session drift pot 0 1).
Notation dref := (reference drift pot 0 1).
Lemma quotient_int (a : Z) : (0 <= a < 2147483648)%Z -> int_quotient (IZR a) 1 = Ok a.
Proof.
  intros H. destruct (quotient_total (IZR a) 1) as (n & N & _); [lra|apply IZR_le; lia| |].
  - rewrite Rmult_1_r. change 2147483648 with (IZR 2147483648). apply IZR_lt. lia.
  - rewrite N. f_equal. apply (quotient_exact 1 a n); [lra|]. rewrite Rmult_1_r. exact N.
Qed.

Notation dreach a := (reachable drift pot 0 1 (eq (IZR a))).
(** a session of [n] iterations from file k, with nbstep_diag = a *)
Lemma dsession_ok (a : Z) d k n : (0 < a < 2147483648)%Z -> dreach a d -> can_start d k ->
  exists ops, dsession d (0, 0) k n (IZR a) = Ok ops /\ Z.of_nat (length ops) = (2 * files n a)%Z /\
  (forall c, dreach a (crashed d ops c)) /\
  forall c x, let done := (Z.min (Z.of_nat c) (2 * files n a) / 2)%Z in
    crashed d ops c x =
      if ((k <=? x) && (x <? k + done))%Z then File (dref (Z.to_nat (x * a)))
      else if ((x =? k + done) && Z.odd (Z.min (Z.of_nat c) (2 * files n a)))%Z then Torn else d x.
Proof.
  intros A Hr Hc. destruct (crash_state drift pot 0 1 (IZR a) a d (0, 0) k n (quotient_int a ltac:(lia)) ltac:(lia) Hr Hc) as (ops & Hs & L & C).
  exists ops. split; [exact Hs|]. split; [exact L|]. split; [|exact C]. intros c. eapply Started; [exact Hr|reflexivity|exact Hs].
Qed.

(** five iterations with a crash during the second file, then a restart from the first, stopped by a crash while it writes *)
Lemma example_history : exists d, dreach 2 d /\ d 0%Z = File (0, 0, 0) /\ d 1%Z = Torn /\ can_start d 0.
Proof.
  destruct (dsession_ok 2 (fun _ => Absent) 0 5 ltac:(lia) ltac:(apply Fresh) ltac:(now left)) as (ops & _ & _ & R1 & C1).
  exists (crashed (fun _ => Absent) ops 3). split; [apply R1|]. rewrite !C1. split; [|split; [reflexivity|now left]].
  cbn. unfold reference. cbn. do 2 f_equal. f_equal; ring.
Qed.
Lemma example_restart : exists d, dreach 2 d /\ can_start d 2 /\ d 3%Z = Absent /\ d 2%Z = File (dref 4).
Proof.
  destruct (dsession_ok 2 (fun _ => Absent) 0 5 ltac:(lia) ltac:(apply Fresh) ltac:(now left)) as (ops & _ & _ & R1 & C1).
  exists (crashed (fun _ => Absent) ops 6). split; [apply R1|]. rewrite !C1. split; [|split; reflexivity].
  right. split; [lia|]. eexists. rewrite C1. reflexivity.
Qed.

(** a crash can lose a complete file: restarting from a file rewrites it first *)
Theorem checkpoint_refuted : ~ (forall (St Phi E : Type) (boltzmann : St -> E -> R -> St) (solve : St -> Phi * E) init dt td nb d fields0 k nbiter ops c x v,
  int_quotient td dt = Ok nb -> (0 < nb)%Z -> reachable boltzmann solve init dt (eq td) d -> can_start d k ->
  session boltzmann solve init dt d fields0 k nbiter td = Ok ops -> d x = File v -> crashed d ops c x = File v).
Proof.
  intros H. destruct example_restart as (d & Hr & Hc & _ & D2).
  destruct (dsession_ok 2 d 2 5 ltac:(lia) Hr Hc) as (ops & Hs & _ & _ & C).
  specialize (H R R R drift pot 0 1 2 2%Z d (0, 0) 2%Z 5%Z ops 1%nat 2%Z _ (quotient_int 2 ltac:(lia)) ltac:(lia) Hr Hc Hs D2).
  rewrite C in H. cbn in H. discriminate.
Qed.

(** --iter-restart is documented as the index of the iteration: the first state of a session is the one after [k] iterations *)
Theorem iteration_argument_refuted : ~ (forall (St Phi E : Type) (boltzmann : St -> E -> R -> St) (solve : St -> Phi * E) init dt td nb d k t f,
  int_quotient td dt = Ok nb -> (0 < nb)%Z -> reachable boltzmann solve init dt (eq td) d -> can_start d k ->
  start init d k = Ok (t, f) -> t = IZR k * dt /\ f = pc_state boltzmann solve dt init (Z.to_nat k)).
Proof.
  intros H. destruct example_restart as (d & Hr & Hc & D3 & D2).
  destruct (can_start_ok drift pot 0 1 2 2 d 2 (quotient_int 2 ltac:(lia)) ltac:(lia) Hr Hc) as [_ S0].
  destruct (H R R R drift pot 0 1 2 2%Z d 2%Z _ _ (quotient_int 2 ltac:(lia)) ltac:(lia) Hr Hc S0) as [T _].
  change (Z.to_nat (2 * 2)) with 4%nat in T. rewrite INR_IZR_INZ in T. change (Z.of_nat 4) with 4%Z in T. lra.
Qed.

(** a change of time_diag between two sessions: a file with a larger number is not a later state *)
Theorem changed_diag_refuted : ~ (forall (St Phi E : Type) (boltzmann : St -> E -> R -> St) (solve : St -> Phi * E) init dt d x y tx fx px ty fy py,
  0 < dt -> reachable boltzmann solve init dt (fun _ => True) d -> (x < y)%Z -> d x = File (tx, fx, px) -> d y = File (ty, fy, py) -> tx <= ty).
Proof.
  intros H.
  destruct (dsession_ok 1 (fun _ => Absent) 0 4 ltac:(lia) ltac:(apply Fresh) ltac:(now left)) as (ops & Hs & L & R1 & C1).
  set (d := crashed (fun _ => Absent) ops (length ops)).
  assert (D : forall x, (0 <= x < 5)%Z -> d x = File (dref (Z.to_nat x))).
  { intros x X. unfold d. rewrite C1. rewrite L. change (files 4 1) with 5%Z. change (Z.min (2 * 5) (2 * 5) / 2)%Z with 5%Z.
    destruct (Z.leb_spec 0 x); [|lia]. destruct (Z.ltb_spec x (0 + 5)); [|lia]. cbn [andb]. rewrite Z.mul_1_r. reflexivity. }
  assert (Rd : reachable drift pot 0 1 (fun _ => True) d).
  { unfold d. eapply Started; [apply Fresh|exact I|exact Hs]. }
  assert (S2 : start 0 d 2 = Ok (INR 2 * 1, pc_state drift pot 1 0 2)).
  { unfold start. change (2 =? 0)%Z with false. cbv iota. rewrite to_int_small, D by lia. reflexivity. }
  pose proof (session_ok drift pot 0 1 d (0, 0) 2 3 3 2 3 S2 (quotient_int 3 ltac:(lia)) ltac:(lia)) as S3.
  rewrite to_int_small in S3 by lia. change (Z.to_nat 3 / Z.to_nat 3)%nat with 1%nat in S3.
  set (o2 := write_files 2 _ 2) in S3.
  assert (Rd2 : reachable drift pot 0 1 (fun _ => True) (crashed d o2 4)) by (eapply Started; [exact Rd|exact I|exact S3]).
  assert (F3 : crashed d o2 4 3%Z = File (dref 5)) by (unfold o2; rewrite crashed_files; reflexivity).
  assert (F4 : crashed d o2 4 4%Z = File (dref 4)) by (unfold o2; rewrite crashed_files; cbn -[reference]; rewrite D by lia; reflexivity).
  pose proof (H R R R drift pot 0 1 _ 3%Z 4%Z _ _ _ _ _ _ ltac:(lra) Rd2 ltac:(lia) F3 F4) as T.
  rewrite !INR_IZR_INZ in T. change (Z.of_nat 5) with 5%Z in T. change (Z.of_nat 4) with 4%Z in T. lra.
Qed.

(** the last state is not always saved *)
Theorem last_state_refuted : ~ (forall (St Phi E : Type) (boltzmann : St -> E -> R -> St) (solve : St -> Phi * E) init dt td fields0 nbiter ops,
  0 < dt <= td -> (0 <= nbiter)%Z -> session boltzmann solve init dt (fun _ => Absent) fields0 0 nbiter td = Ok ops ->
  exists j f phi, completed (fun _ => Absent) ops j = File (IZR nbiter * dt, f, phi)).
Proof.
  intros H. destruct (dsession_ok 2 (fun _ => Absent) 0 5 ltac:(lia) ltac:(apply Fresh) ltac:(now left)) as (ops & Hs & _).
  specialize (H R R R drift pot 0 1 2 (0, 0) 5%Z ops ltac:(lra) ltac:(lia) Hs).
  apply (last_state drift pot 0 1 2 2 (0, 0) 5 ops ltac:(lra) (quotient_int 2 ltac:(lia)) ltac:(lia) ltac:(lia) Hs) in H.
  destruct H as [q Q]. lia.
Qed.
(** the files are not time_diag apart *)
Theorem spacing_refuted : ~ (forall (St Phi E : Type) (boltzmann : St -> E -> R -> St) (solve : St -> Phi * E) init dt td fields0 nbiter ops j t f phi,
  0 < dt <= td -> session boltzmann solve init dt (fun _ => Absent) fields0 0 nbiter td = Ok ops ->
  completed (fun _ => Absent) ops j = File (t, f, phi) -> t = IZR j * td).
Proof.
  intros H.
  destruct (diag_schedule drift pot 0 1 (5 / 2) (fun _ => Absent) (0, 0) 4 ltac:(lra) ltac:(lra) ltac:(apply Fresh)) as (ops & nb & Hs & P & B & F & _).
  assert (nb = 2)%Z. { assert (1 < IZR nb < 3) by lra. destruct H0 as [A1 A2]. apply lt_IZR in A1, A2. lia. }
  subst nb. destruct (F 1%Z) as (t & f & phi & C & T & _); [unfold files; cbn; lia|].
  pose proof (H R R R drift pot 0 1 (5 / 2) (0, 0) 4%Z ops 1%Z t f phi ltac:(lra) Hs C) as K. lra.
Qed.
(** the polar executables do not get within one step of the final time *)
Theorem polar_refuted : ~ (forall T dt n, 0 < dt -> 0 <= T -> polar_steps T dt = Ok n -> T - dt < IZR n * dt).
Proof.
  intros H. assert (N : polar_steps 10 (3 / 10) = Ok 30%Z).
  { unfold polar_steps. destruct (quotient_total 1 (3 / 10)) as (u & U & U0 & U1 & U2); [lra|lra|lra|]. rewrite U. cbn [bind].
    assert (u = 3)%Z. { assert (2 < IZR u < 4) by lra. destruct H0 as [A1 A2]. apply lt_IZR in A1, A2. lia. } subst u.
    destruct (c_int_bounds (10 * 3)) as (n & N & N0 & N1 & N2); [lra|]. rewrite N. f_equal.
    assert (29 < IZR n < 31) by lra. destruct H0 as [A1 A2]. apply lt_IZR in A1, A2. lia. }
  specialize (H 10 (3 / 10) 30%Z ltac:(lra) ltac:(lra) N). lra.
Qed.
Lemma polar_no_step T dt : 1 < dt -> 0 <= T -> polar_steps T dt = Ok 0%Z.
Proof.
  intros D H. unfold polar_steps. destruct (quotient_total 1 dt) as (u & U & U0 & U1 & U2); [lra|lra|lra|]. rewrite U. cbn [bind].
  assert (u = 0)%Z. { assert (IZR u < 1). { apply Rmult_lt_reg_r with dt; lra. } apply lt_IZR in H0. lia. } subst u.
  rewrite Rmult_0_r. destruct (c_int_bounds 0) as (n & N & N0 & N1 & N2); [lra|]. rewrite N. f_equal. assert (IZR n < 1) by lra. apply lt_IZR in H0. lia.
Qed.
(** the collision operator is applied once more than the number of iterations *)
Theorem applications_refuted : ~ (forall (St : Type) (collide : St -> R -> St) f dt nbiter td g ops,
  coll_main collide f dt nbiter td = Ok (g, ops) -> (0 <= nbiter)%Z -> g = collided collide dt f (Z.to_nat nbiter)).
Proof.
  intros H. destruct (collision_files (fun (f : Z) _ => (f + 1)%Z) 0%Z 0 1 1 1 (fun _ => Absent)) as (g & ops & E & G & _); [lra| |lia|unfold int_max; lia|].
  - apply collision_steady; [lra|lia].
  - specialize (H Z (fun f _ => (f + 1)%Z) 0%Z 0 1%Z 1 g ops E ltac:(lia)). rewrite G in H. vm_compute in H. discriminate.
Qed.
Lemma collision_example : coll_nbstep 0 5 1 = Ok 5%Z /\ exists nb, coll_nbstep (1 / 200) 5 (1 / 100) = Ok nb /\ (0 < nb)%Z.
Proof.
  split; [apply collision_steady; [lra|lia]|]. unfold coll_nbstep. destruct (Req_EM_T (1 / 200) 0); [lra|].
  destruct (quotient_total (1 / 100) (1 / 200)) as (u & U & U0 & U1 & U2); [lra|lra|lra|]. exists u. split; [exact U|].
  assert (1 < IZR u) by lra. apply lt_IZR in H. lia.
Qed.
(** the guiding centre program on one cell *)
Lemma guiding_centre_example : exists ops, guiding_centre cell [1] 2 5 1 = Ok ops.
Proof.
  unfold guiding_centre. destruct (quotient_total 5 2) as (n & N & N0 & N1 & N2); [lra|lra|lra|]. rewrite N. cbn [bind].
  assert (n < 3)%Z by (apply lt_IZR; lra).
  assert (X : exists phi E, x_poisson cell [1] = Ok (phi, E, [1])) by (cbn; eauto). destruct X as (phi & E & X). rewrite X. cbn [bind].
  destruct (cell_runs [1] 2 n) as [[f evs] Rn]; [unfold int_max; lia|]. rewrite Rn. cbn [bind].
  generalize ({| xe_iter := 0; xe_time := 0 * 2; xe_f := [1]; xe_phi := phi; xe_E := E |} :: evs). intros l. induction l as [|e l [o IH]]; [eexists; reflexivity|].
  cbn [save_all]. unfold save_by_iteration at 1. cbn [Z.eqb]. rewrite IH. destruct (Z.rem (xe_iter e) 1 =? 0)%Z; eexists; reflexivity.
Qed.
