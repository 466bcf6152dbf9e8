(** From the coefficients to the API: function coefficients, constructor checks (C68). *)
From Verif Require Import FftHalf.
From Verif Require Import IfdSpec IfdAnalysis OnionProofs OnionEval IfdProofs IfdMain IfdCase.
From Coq Require Import ZifyBool.
Open Scope R_scope.

Lemma for_res_body {A} n (f g : nat -> A -> res A) : (forall i a, (i < n)%nat -> f i a = g i a) -> forall a, for_res n f a = for_res n g a.
Proof.
  intros H a. induction n as [|n IH]; [reflexivity|]. cbn [for_res]. rewrite IH by (intros; apply H; lia).
  destruct (for_res n g a); cbn [bind]; auto.
Qed.
Lemma weighted_sum_ok n (first : nat) f v : (first + n <= length f)%nat -> (first + n <= length v)%nat ->
  weighted_sum n (Z.of_nat first) f v = Ok (Rsum n (fun k => nth (first + k) f 0 * nth (first + k) v 0)).
Proof.
  intros A B. unfold weighted_sum.
  rewrite (for_res_body n _ (fun i y => let* a := Ok (nth (first + i) f 0 * nth (first + i) v 0) in Ok (y + a))).
  - rewrite (for_res_sum n _ (fun k => nth (first + k) f 0 * nth (first + k) v 0)) by reflexivity. f_equal. ring.
  - intros i y Hi. rewrite <- Nat2Z.inj_add. rewrite (rd_nthd f 0 (first + i)) by (auto; lia). cbn [bind].
    rewrite (rd_nthd v 0 (first + i)) by (auto; lia). cbn [bind]. reflexivity.
Qed.
Lemma sum_pos p (g : nat -> R) : Rsum (length (sd_x p)) (fun k => g (pos p k)) = Rsum (length (sd_x p)) g.
Proof. unfold pos. destruct (sd_ext p); [reflexivity|]. apply Rsum_rev. Qed.
Lemma point_pos p k : point_away p k = nth (pos p k) (sd_x p) 0.
Proof. unfold point_away, pos. destruct (sd_ext p); reflexivity. Qed.

Section Pair.
Variables p1 p2 : side.
Hypothesis O1 : ordered p1.
Hypothesis O2 : ordered p2.

Lemma function_coefficients_len c f1 f2 (s : R -> R) : length (w1 c) = length (sd_x p1) -> length (w2 c) = length (sd_x p2) ->
  values_of p1 p2 s f1 f2 ->
  get_function_coefficients p1 p2 c f1 f2 = Ok (E p1 p2 c (fun k => s (- dist p1 k)) (fun k => s (dist p2 k))).
Proof.
  intros G1 G2 (L1 & L2 & V1 & V2).
  pose proof (cells_lt _ O1) as C1. pose proof (cells_lt _ O2) as C2.
  assert (W1 : forall k, (k < length (sd_x p1))%nat -> nth (pos p1 k) f1 0 = s (- dist p1 k)).
  { intros k Hk. rewrite V1 by (apply pos_lt; auto). rewrite dist_pos, point_pos. reflexivity. }
  assert (W2 : forall k, (k < length (sd_x p2))%nat -> nth (pos p2 k) f2 0 = s (dist p2 k)).
  { intros k Hk. rewrite V2 by (apply pos_lt; auto). rewrite dist_pos, point_pos. reflexivity. }
  unfold get_function_coefficients.
  assert (I1 : interface_idx p1 = Z.of_nat (pos p1 0)) by (rewrite <- pos_Z by lia; lia).
  assert (I2 : interface_idx p2 = Z.of_nat (pos p2 0)) by (rewrite <- pos_Z by lia; lia).
  pose proof (pos_lt p1 0 ltac:(lia)) as P1. pose proof (pos_lt p2 0 ltac:(lia)) as P2.
  rewrite I1, (rd_nthd f1 0 (pos p1 0)) by (auto; lia). cbn [bind].
  rewrite I2, (rd_nthd f2 0 (pos p2 0)) by (auto; lia). cbn [bind].
  rewrite W1, W2, !dist_0, Ropp_0 by lia. rewrite Rminus_diag_eq, Rabs_R0 by reflexivity.
  destruct (Rlt_dec 0 (/ 10 ^ 13)) as [_|N]; [|exfalso; apply N; apply Rinv_0_lt_compat, pow_lt; lra].
  cbn [check bind]. change 0%Z with (Z.of_nat 0). rewrite weighted_sum_ok by lia. cbn [bind].
  replace (if is_front p2 then 1%Z else Z.of_nat 0) with (Z.of_nat (if is_front p2 then 1 else 0)) by (destruct (is_front p2); reflexivity).
  rewrite weighted_sum_ok by (destruct (is_front p2); lia). cbn [bind]. f_equal.
  unfold E, wsum. rewrite <- (sum_pos p1 (fun k => nth (0 + k) f1 0 * nth (0 + k) (w1 c) 0)). unfold Rminus. rewrite Rplus_assoc. f_equal.
  { apply Rsum_ext. intros i Hi. cbn [Nat.add]. rewrite W1 by auto. unfold wt. ring. }
  rewrite (Rsum_ext (length (sd_x p2)) _ (fun k => nth (pos p2 k) f2 0 * nth (pos p2 k) (w2 c) 0)).
  2: { intros i Hi. rewrite W2 by auto. unfold wt. ring. }
  rewrite (sum_pos p2 (fun k => nth k f2 0 * nth k (w2 c) 0)). rewrite <- W2 by lia. unfold wt, is_front, pos.
  destruct (length (sd_x p2)) as [|n]; [lia|]. replace (S n - 1)%nat with n by lia.
  destruct (sd_ext p2).
  - rewrite Rsum_first. cbn [Nat.add]. ring_simplify. apply Rsum_ext. intros; reflexivity.
  - cbn [Rsum Nat.add]. rewrite Nat.sub_0_r. ring_simplify. apply Rsum_ext. intros; reflexivity.
Qed.
Lemma function_coefficients c f1 f2 (s : R -> R) : good p1 p2 c -> values_of p1 p2 s f1 f2 ->
  get_function_coefficients p1 p2 c f1 f2 = Ok (E p1 p2 c (fun k => s (- dist p1 k)) (fun k => s (dist p2 k))).
Proof. intros [G1 G2 _]. apply function_coefficients_len; assumption. Qed.
Lemma link c s d : good p1 p2 c -> rel p1 p2 c (length (sd_x p1) - 1) (length (sd_x p2) - 1) ->
  (2 <= cells p1)%nat \/ sd_greville p1 = false -> (2 <= cells p2)%nat \/ sd_greville p2 = false ->
  global_spline p1 p2 s d -> relation_holds p1 p2 c s d.
Proof.
  intros G Rl N1 N2 SP f1 f2 V. eexists. split; [apply (function_coefficients c f1 f2 s); auto|].
  pose proof (Rl _ _ _ _ (spline_consistent p1 p2 s d O1 O2 N1 N2 SP)) as EQ. cbv beta in EQ. rewrite dist_0 in EQ.
  unfold get_coeff_deriv_patch_1, get_coeff_deriv_patch_2, far. rewrite EQ at 1. ring.
Qed.
End Pair.

(** ** The checks of the constructor *)
Lemma incl_close (l x : list R) : incl l x ->
  forallb (fun b => existsb (fun x => if Rlt_dec (Rabs (b - x)) (/ 10 ^ 15) then true else false) x) l = true.
Proof.
  intros H. apply forallb_forall. intros b Hb. apply existsb_exists. exists b. split; [auto|].
  rewrite Rminus_diag_eq, Rabs_R0 by reflexivity. destruct (Rlt_dec 0 (/ 10 ^ 15)) as [_|N]; [reflexivity|].
  exfalso. apply N. apply Rinv_0_lt_compat, pow_lt. lra.
Qed.
Lemma checks_pass p : ordered p -> breaks_are_points p ->
  check_size p = Ok tt /\ check_break_points p = Ok tt /\ (if sd_greville p then check_additional p else Ok tt) = Ok tt.
Proof.
  intros O B. pose proof (cells_lt _ O) as CL. destruct O as [MO HC].
  unfold breaks_are_points, cells, check_size, check_break_points, check_additional, is_front, sd_n in *.
  destruct (sd_greville p) eqn:G.
  - destruct (sd_ext p) eqn:X.
    + assert (LB : length (sd_breaks p) = (length (sd_x p) - 1)%nat) by (rewrite B, app_length, firstn_length; cbn; lia).
      split; [|split].
      * rewrite LB. destruct (Z.eqb_spec (Z.of_nat (length (sd_x p))) (Z.of_nat (length (sd_x p) - 1) - 1 + 2)); [reflexivity|lia].
      * rewrite incl_close; [reflexivity|]. rewrite B. intros b Hb. apply in_app_or in Hb. destruct Hb as [Hb|[<-|[]]].
        -- rewrite <- (firstn_skipn (length (sd_x p) - 2)). apply in_or_app. auto.
        -- apply nth_In. lia.
      * set (n := length (sd_x p)) in *.
        replace (Z.of_nat n - 2)%Z with (Z.of_nat (n - 2)) by lia.
        rewrite (rd_nthd (sd_x p) 0 (n - 2)) by lia. cbn [bind]. rewrite LB.
        replace (Z.of_nat (n - 1) - 2)%Z with (Z.of_nat (n - 3)) by lia. replace (Z.of_nat (n - 1) - 1)%Z with (Z.of_nat (n - 2)) by lia.
        rewrite (rd_nthd (sd_breaks p) 0 (n - 3)) by lia. rewrite (rd_nthd (sd_breaks p) 0 (n - 2)) by lia. cbn [bind].
        rewrite B. rewrite app_nth1 by (rewrite firstn_length; lia). rewrite app_nth2 by (rewrite firstn_length; lia).
        rewrite firstn_length. replace (n - 2 - Nat.min (n - 2) (length (sd_x p)))%nat with 0%nat by lia. cbn [nth].
        assert (NF : nth (n - 3) (firstn (n - 2) (sd_x p)) 0 = nth (n - 3) (sd_x p) 0).
        { rewrite <- (firstn_skipn (n - 2) (sd_x p)) at 2. rewrite app_nth1; [reflexivity|]. rewrite firstn_length. lia. }
        rewrite NF. pose proof (MO (n - 3) (n - 2) ltac:(lia))%nat. pose proof (MO (n - 2) (n - 1) ltac:(lia))%nat.
        destruct (Rlt_dec _ _); [|lra]. destruct (Rlt_dec _ _); [reflexivity|lra].
    + assert (LB : length (sd_breaks p) = (length (sd_x p) - 1)%nat) by (rewrite B; cbn [length]; rewrite skipn_length; lia).
      split; [|split].
      * rewrite LB. destruct (Z.eqb_spec (Z.of_nat (length (sd_x p))) (Z.of_nat (length (sd_x p) - 1) - 1 + 2)); [reflexivity|lia].
      * rewrite incl_close; [reflexivity|]. rewrite B. intros b [<-|Hb].
        -- apply nth_In. lia.
        -- rewrite <- (firstn_skipn 2). apply in_or_app. auto.
      * change 0%Z with (Z.of_nat 0). change 1%Z with (Z.of_nat 1).
        rewrite (rd_nthd (sd_x p) 0 1) by lia. cbn [bind].
        rewrite (rd_nthd (sd_breaks p) 0 0) by lia. rewrite (rd_nthd (sd_breaks p) 0 1) by lia. cbn [bind]. rewrite B.
        assert (NS : nth 1 (nth 0 (sd_x p) 0 :: skipn 2 (sd_x p)) 0 = nth 2 (sd_x p) 0).
        { destruct (sd_x p) as [|a [|b [|e l]]]; cbn in *; try lia; reflexivity. }
        rewrite NS. cbn [nth]. pose proof (MO 0 1 ltac:(lia))%nat. pose proof (MO 1 2 ltac:(lia))%nat.
        destruct (Rlt_dec _ _) as [|N]; [|exfalso; apply N; auto]. destruct (Rlt_dec _ _) as [|N]; [reflexivity|exfalso; apply N; auto].
  - destruct B as [l B]. split; [|split; [|reflexivity]].
    + assert (LB : length (sd_breaks p) = (length (sd_x p) + length l)%nat) by (rewrite B; destruct (sd_ext p); rewrite app_length; lia).
      rewrite LB. destruct (Z.leb_spec (Z.of_nat (length (sd_x p))) (Z.of_nat (length (sd_x p) + length l) - 1 + 1)); [reflexivity|lia].
    + rewrite incl_close; [reflexivity|]. rewrite B. destruct (sd_ext p).
      * rewrite firstn_app, firstn_all, Nat.sub_diag. cbn [firstn]. rewrite app_nil_r. apply incl_refl.
      * rewrite app_length. replace (length l + length (sd_x p) - length (sd_x p))%nat with (length l) by lia.
        rewrite skipn_app, skipn_all, Nat.sub_diag. cbn [skipn app]. apply incl_refl.
Qed.
Lemma calculator_eq p1 p2 : ordered p1 -> ordered p2 -> breaks_are_points p1 -> breaks_are_points p2 ->
  calculator p1 p2 = if sd_uniform p1 && sd_uniform p2 then uniform_case p1 p2 else non_uniform_case p1 p2.
Proof.
  intros O1 O2 B1 B2. unfold calculator. destruct (checks_pass p1 O1 B1) as (A & B & C). destruct (checks_pass p2 O2 B2) as (A' & B' & C').
  rewrite A, A', B, B', C, C'. cbn [bind]. reflexivity.
Qed.
