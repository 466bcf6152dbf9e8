(** The right-hand side, and the values of splines on the boundary. *)
From Coq Require Import ZifyBool.
From Verif Require Import Lib LagDerivSpec DerivModel QuadModel FemModel FemSolve QuadProofs OnionEval FemMain MappingModel PspModel PspSpec PspBasis PspProofs PspMain PspEval PpfModel PpfSpec PpfRows PpfPattern PpfCsr PpfBasis PpfWin PpfForm.
Open Scope R_scope.

Section Rhs.
  Variables (p : pfem) (tr tt : nat -> R) (m : dmap) (x0 y0 : R) (sched : schedule).
  Hypothesis FS : fem_setup p tr tt m x0 y0.
  Hypothesis HO : any_order sched.
  Notation ns := (pf_ns p).
  Notation d := (pf_d p).
  Notation nt := (pf_nt p).
  Notation N := (pf_nr p).
  Notation c1 := (pf_c1 p).
  Notation z := Z.of_nat.
  Notation qr a := (nth a (pf_qr p) 0).
  Notation qt b := (nth b (pf_qt p) 0).
  Notation g := (d + 1)%nat.
  Notation cells := (b_cells (pf_r p)).
  Notation n := (ns + N * nt)%nat.
  Let HS := fe_sizes p tr tt m x0 y0 FS.
  Variable V : nat -> nat -> nat -> R.
  Hypothesis HV : holds c1 (b_size (pf_t p)) (pf_el p) V.
  Notation B := (Bv p V).
  Variables (rhs : R -> R -> res R) (f : R -> R -> R).
  Hypothesis HF : forall a b, (a < cells * g)%nat -> (b < nt * g)%nat -> rhs (qr a) (qt b) = Ok (f (qr a) (qt b)).
  Definition L (i a b : nat) : R := f (qr a) (qt b) * B i 0%nat 0%nat a b * vol p a b.
  Definition load (i : nat) : R := Rsum (cells * g) (fun a => Rsum (nt * g) (fun b => L i a b)).
  Lemma point_ok i a b : (i < n)%nat -> (a < cells * g)%nat -> (b < nt * g)%nat -> touches p i (a / g) (b / g) ->
    rhs_point p rhs (z i) (z a) (z b) = Ok (L i a b).
  Proof.
    intros Hi Ha Hb Ti. unfold rhs_point. rewrite (rd_nth _ a 0) by (rewrite (len_r p tr tt m x0 y0 FS); exact Ha).
    rewrite (rd_nth _ b 0) by (rewrite (len_t p tr tt m x0 y0 FS); exact Hb). cbn [bind]. rewrite HF by assumption. cbn [bind].
    destruct (derivs_ok p tr tt m x0 y0 FS V HV i a b Hi Ha Hb Ti) as [_ E1]. rewrite E1. cbn [bind]. rewrite (vol_ok p tr tt m x0 y0 FS) by assumption. reflexivity.
  Qed.
  Lemma point_off i a b : (i < n)%nat -> (a < cells * g)%nat -> (b < nt * g)%nat -> ~ touches p i (a / g) (b / g) -> L i a b = 0.
  Proof.
    intros Hi Ha Hb HT. destruct (div_lt a cells g Ha) as [HA _]. destruct (div_lt b nt g Hb) as [HB _].
    unfold L. rewrite (bv_off p tr tt m x0 y0 FS V i 0 0 a b Hi HA HB HT). ring.
  Qed.
  Definition bF (k : nat) : option R := Some (load k).
  Lemma rhs_singular_ok k s : (k < ns)%nat -> length s = n -> exists s', rhs_singular p rhs k s = Ok s' /\ wrote None bF (fun i => i = k) s s'.
  Proof.
    intros Hk HL. pose proof (H_nt p HS) as HT. pose proof (fs_radial p HS) as HR. fold d in HR.
    assert (CL : (c1 * g <= cells * g)%nat) by (apply Nat.mul_le_mono_r; lia).
    unfold rhs_singular. rewrite (nq_t p HS). rewrite (sum_points_ok 0 (c1 * g) 0 (nt * g) _ (fun a b => L k a b)).
    - cbn [bind]. apply wrote_one; [lia|]. unfold bF. f_equal. unfold load. apply Rsum_cut; [exact CL|].
      intros a Ha. apply Rsum_zero. intros b Hb. apply point_off; try lia.
      rewrite (touches_sing p HS) by assumption. assert (c1 <= a / g)%nat by (apply Nat.div_le_lower_bound; lia). lia.
    - intros a b Ha Hb. apply point_ok; try lia. rewrite (touches_sing p HS) by assumption. apply Nat.div_lt_upper_bound; lia.
  Qed.
  Lemma rhs_tensor_ok q it s : (q < N)%nat -> (it < nt)%nat -> length s = n ->
    exists s', rhs_tensor p rhs (q * nt + it) s = Ok s' /\ wrote None bF (fun i => i = (ns + (q * nt + it))%nat) s s'.
  Proof.
    intros Hq Hi HL. pose proof (H_nt p HS) as HT. pose proof (H_N p HS) as HN. pose proof (fs_radial p HS) as HR. fold d in HR.
    pose proof (cells_eq p HS) as CE. pose proof (row_index p q it Hq Hi) as HI.
    unfold rhs_tensor. replace (ns + (q * nt + it))%nat with (ns + q * nt + it)%nat by lia. rewrite two_d_at by assumption. cbn [bind].
    set (sr := (c1 + q - d)%nat). set (er := Nat.min cells (c1 + q + 1)). set (i := (ns + q * nt + it)%nat) in *.
    replace (Z.max 0 (z (c1 + q) - z d)) with (z sr) by lia. replace (Z.min (z cells) (z (c1 + q) + 1)) with (z (sr + (er - sr))) by lia.
    rewrite (between_1 p tr tt m x0 y0 FS) by lia. cbn [bind]. set (nr := (er - sr)%nat).
    rewrite <- !Nat2Z.inj_mul. rewrite !Nat2Z.id.
    set (S1 := st1 p it) in *. pose proof (st1_lt p tr tt m x0 y0 FS it Hi) as HS1. fold S1 in HS1.
    assert (H4 : ((sr + nr) * g <= cells * g)%nat) by (apply Nat.mul_le_mono_r; lia). assert (H5 : (S1 * g < nt * g)%nat) by (apply Nat.mul_lt_mono_pos_r; lia).
    assert (H6 : (g * g <= nt * g)%nat) by (apply Nat.mul_le_mono_r; lia).
    rewrite (for_res_ext (g * g) _ (fun (j : nat) (s : R) => let* x := Ok (Rsum (nr * g) (fun a => L i (sr * g + a)%nat ((S1 * g + j) mod (nt * g))%nat)) in Ok (s + x))).
    - rewrite (for_res_sum (g * g) _ (fun j => Rsum (nr * g) (fun a => L i (sr * g + a)%nat ((S1 * g + j) mod (nt * g))%nat))) by reflexivity. cbn [bind].
      apply wrote_one; [lia|]. unfold bF. f_equal. rewrite Rplus_0_l. rewrite Rsum_swap. unfold load.
      apply (window_sum p sr nr S1 g (L i)); [lia|exact HS1|lia|].
      intros a b Ha Hb NE. destruct (div_lt b nt g Hb) as [HB _]. destruct (div_lt a cells g Ha) as [HA _]. apply point_off; try assumption.
      unfold i. rewrite (touches_tensor p HS) by assumption. intros [T1 T2]. apply NE. split; [lia|]. apply (near_window p tr tt m x0 y0 FS); assumption.
    - intros j s0 Hj. rewrite <- !Nat2Z.inj_add. rewrite (nq_t p HS).
      set (bq := (S1 * g + j)%nat). assert (BQ : (bq < 2 * (nt * g))%nat) by (unfold bq; lia).
      replace (if ((0 <=? z bq) && (z bq <? z (nt * g)))%Z%bool then z bq else (z bq - z (nt * g))%Z) with (z (bq mod (nt * g))).
      2:{ rewrite mod_once by exact BQ. destruct (bq <? nt * g)%nat eqn:Q; destruct ((0 <=? z bq) && (z bq <? z (nt * g)))%Z%bool eqn:Q2; lia. }
      cbv zeta. assert (HB : (bq mod (nt * g) < nt * g)%nat) by (apply Nat.mod_upper_bound; lia).
      rewrite (for_res_sum (nr * g) (fun a => rhs_point p rhs (z i) (z (sr * g) + z a) (z (bq mod (nt * g)))) (fun a => L i (sr * g + a)%nat (bq mod (nt * g))%nat)).
      + reflexivity.
      + intros a Ha. rewrite <- Nat2Z.inj_add. destruct (div_lt (bq mod (nt * g)) nt g HB) as [HB' _]. apply point_ok; [exact HI|lia|exact HB|].
        unfold i. rewrite (touches_tensor p HS) by assumption. split.
        * destruct (div_lt a nr g Ha) as [I1 [I2 I3]]. rewrite I3. replace (sr * g + (a / g * g + a mod g))%nat with ((sr + a / g) * g + a mod g)%nat by ring.
          destruct (div_mod_at g (sr + a / g) (a mod g) I2) as [A _]. rewrite A. lia.
        * apply (near_window p tr tt m x0 y0 FS); try assumption. apply (cell_window p S1 g); try assumption; [lia|]. exists j. split; [exact Hj|reflexivity].
  Qed.
  Lemma rhs_ok : right_hand_side p rhs sched = Ok (map bF (seq 0 n)).
  Proof.
    pose proof (H_nt p HS) as HT. unfold right_hand_side. rewrite (size_eq p HS).
    destruct (par_writes None bF (fun k i => i = k) n (rhs_singular p rhs) (sched 10%nat ns) (repeat None n) (fun _ => False)) as [s1 [E1 [L1 A1]]].
    { intros k s Hk HL. apply all_tasks in Hk; [|exact HO]. apply rhs_singular_ok; assumption. }
    { intros; apply Nat.eq_dec. }
    { apply repeat_length. }
    { intros i []. }
    rewrite E1. cbn [bind].
    destruct (fun HB DW => par_writes None bF (fun k i => i = (ns + k)%nat) n (rhs_tensor p rhs) (sched 11%nat (N * nt)%nat) s1 _ HB DW L1 A1) as [s2 [E2 [L2 A2]]].
    { intros k s Hk HL. apply all_tasks in Hk; [|exact HO]. destruct (div_lt k N nt Hk) as [H1 [H2 H3]].
      pose proof (rhs_tensor_ok (k / nt) (k mod nt) s H1 H2 HL) as X. rewrite <- H3 in X. exact X. }
    { intros; apply Nat.eq_dec. }
    rewrite E2. f_equal. apply (agrees_all None bF _ n s2 L2 A2). intros i Hi. destruct (lt_dec i ns) as [Li|Li].
    - left. right. exists i. rewrite all_tasks by exact HO. auto.
    - right. exists (i - ns)%nat. rewrite all_tasks by exact HO. split; lia.
  Qed.
End Rhs.

(** the B-splines at the last break point, when the last knots coincide *)
Lemma cdb_last t m q j : (q <= m)%nat -> (forall a b, (a <= b <= m + 1)%nat -> t a <= t b) -> t m < t (m + 1)%nat ->
  (forall i, (1 <= i <= q)%nat -> t (m + i)%nat = t (m + 1)%nat) ->
  cdb t m q j (t (m + 1)%nat) = if (j =? q)%nat then 1 else 0.
Proof.
  revert j. induction q as [|q IH]; intros j Hq HM H1 HR; [reflexivity|]. cbn [cdb].
  assert (W : forall k, (1 <= k <= S q)%nat -> cdb_weight t m (S q) k (t (m + 1)%nat) = 1).
  { intros k Hk. unfold cdb_weight. rewrite (HR k Hk). field. pose proof (HM (m + k - S q)%nat m ltac:(lia)). lra. }
  assert (IH' : forall j, cdb t m q j (t (m + 1)%nat) = if (j =? q)%nat then 1 else 0) by (intros j'; apply IH; try assumption; try lia; intros i Hi; apply HR; lia).
  rewrite !IH'. destruct j as [|j].
  - rewrite W by lia. cbn [Nat.eqb]. ring.
  - rewrite IH'. destruct (le_dec (S j) q) as [L1|L1].
    + rewrite !W by lia. cbn [Nat.eqb]. destruct (j =? q)%nat eqn:E; [lia|]. destruct q; [lia|]. destruct (j =? q)%nat eqn:E2; ring.
    + cbn [Nat.eqb]. destruct (j =? q)%nat eqn:E.
      * rewrite W by lia. destruct q; [ring|]. replace (j =? q)%nat with false by lia. ring.
      * destruct q; [ring|]. replace (j =? q)%nat with false by lia. ring.
Qed.
