(** Concrete cases for C68, C69. *)
From Verif Require Import IfdSpec IfdAnalysis IfdTheorems.
Open Scope R_scope.

(** a cubic spline that is not a polynomial: |x|^3 *)
Definition abs_cube (x : R) : R := x * x * Rabs x.
Definition abs_cube' (x : R) : R := 3 * x * Rabs x.
Lemma small_quotient (f : R -> R) K : 0 < K -> (forall h, Rabs h < 1 -> Rabs (f h) <= K * (Rabs h * Rabs h)) -> f 0 = 0 -> derivable_pt_lim f 0 0.
Proof.
  intros HK Hf F0 eps He. assert (HD : 0 < Rmin 1 (eps / K)) by (apply Rmin_pos; [lra|apply Rdiv_lt_0_compat; auto]).
  exists (mkposreal _ HD). intros h Hh Hd. cbn in Hd. rewrite Rplus_0_l, F0, !Rminus_0_r.
  pose proof (Rmin_l 1 (eps / K)). pose proof (Rmin_r 1 (eps / K)). specialize (Hf h ltac:(lra)).
  assert (P : 0 < Rabs h) by (apply Rabs_pos_lt; auto). unfold Rdiv at 1. rewrite Rabs_mult, Rabs_inv.
  apply Rle_lt_trans with (K * Rabs h).
  - apply Rmult_le_reg_r with (Rabs h); auto. rewrite Rmult_assoc, Rinv_l by lra. lra.
  - apply Rlt_le_trans with (K * (eps / K)); [apply Rmult_lt_compat_l; lra|]. apply Req_le. field. lra.
Qed.
Lemma prod_deriv (f : R -> R) x lf la : derivable_pt_lim f x lf -> derivable_pt_lim Rabs x la -> derivable_pt_lim (fun y => f y * Rabs y) x (lf * Rabs x + f x * la).
Proof. intros A B. exact (derivable_pt_lim_mult f Rabs x lf la A B). Qed.
Lemma sq_deriv x : derivable_pt_lim (fun y => y * y) x (2 * x).
Proof. replace (2 * x) with (1 * x + x * 1) by ring. apply (derivable_pt_lim_mult id id); apply derivable_pt_lim_id. Qed.
Lemma lin_deriv x : derivable_pt_lim (fun y => 3 * y) x 3.
Proof. pose proof (derivable_pt_lim_scal id 3 x 1 (derivable_pt_lim_id x)) as H. rewrite Rmult_1_r in H. exact H. Qed.
Lemma abs_cube_deriv x : derivable_pt_lim abs_cube x (abs_cube' x).
Proof.
  destruct (Rtotal_order x 0) as [H|[->|H]].
  - pose proof (prod_deriv (fun y => y * y) x _ _ (sq_deriv x) (Rabs_derive_2 x H)) as D. unfold abs_cube, abs_cube'.
    replace (3 * x * Rabs x) with (2 * x * Rabs x + x * x * -1) by (rewrite Rabs_left by auto; ring). exact D.
  - unfold abs_cube'. replace (3 * 0 * Rabs 0) with 0 by ring. apply (small_quotient _ 1); [lra| |unfold abs_cube; ring].
    intros h Hh. unfold abs_cube. rewrite !Rabs_mult, Rabs_Rabsolu. pose proof (Rabs_pos h). nra.
  - pose proof (prod_deriv (fun y => y * y) x _ _ (sq_deriv x) (Rabs_derive_1 x H)) as D. unfold abs_cube, abs_cube'.
    replace (3 * x * Rabs x) with (2 * x * Rabs x + x * x * 1) by (rewrite Rabs_pos_eq by lra; ring). exact D.
Qed.
Lemma abs_cube'_deriv x : exists l, derivable_pt_lim abs_cube' x l.
Proof.
  destruct (Rtotal_order x 0) as [H|[->|H]].
  - eexists. exact (prod_deriv (fun y => 3 * y) x _ _ (lin_deriv x) (Rabs_derive_2 x H)).
  - exists 0. apply (small_quotient _ 3); [lra| |unfold abs_cube'; ring].
    intros h Hh. unfold abs_cube'. rewrite !Rabs_mult, Rabs_Rabsolu, (Rabs_pos_eq 3) by lra. lra.
  - eexists. exact (prod_deriv (fun y => 3 * y) x _ _ (lin_deriv x) (Rabs_derive_1 x H)).
Qed.
Lemma abs_cube_spline p1 p2 : ordered p1 -> ordered p2 -> global_spline p1 p2 abs_cube abs_cube'.
Proof.
  intros O1 O2.
  assert (NN : forall p k, 0 <= break_dist p k).
  { intros p k. unfold break_dist, far, dist. destruct (k <? cells p)%nat; apply Rabs_pos. }
  split.
  - apply abs_cube_deriv.
  - apply abs_cube'_deriv.
  - intros k _. exists 0, 0, 0, (-1). intros x Hx. pose proof (NN p1 k). unfold abs_cube. rewrite Rabs_left1 by lra. ring.
  - intros k _. exists 0, 0, 0, 1. intros x Hx. pose proof (NN p2 k). unfold abs_cube. rewrite Rabs_pos_eq by lra. ring.
Qed.

Lemma sorted_nth (l : list R) : (forall i, (S i < length l)%nat -> nth i l 0 < nth (S i) l 0) ->
  forall i j, (i < j < length l)%nat -> nth i l 0 < nth j l 0.
Proof.
  intros H i j. induction j as [|j IH]; intros Hij; [lia|].
  pose proof (H j ltac:(lia)). destruct (Nat.eq_dec i j) as [->|N]; [auto|]. specialize (IH ltac:(lia)). lra.
Qed.
Ltac enumerate := apply sorted_nth; cbn [sd_x]; intros [|[|[|[|[|[|i]]]]]] Hi; cbn in Hi; try (exfalso; lia); cbn; lra.
(** patch 1: BACK, cells of lengths 1, 2, 1/2; patch 2: FRONT with an extra point in the last cell *)
Definition ex_left : side := {| sd_x := [0; 1; 3; 7 / 2]; sd_ext := BACK; sd_greville := false; sd_uniform := false; sd_breaks := [0; 1; 3; 7 / 2] |}.
Definition ex_right : side := {| sd_x := [0; 1; 2; 3; 4; 6]; sd_ext := FRONT; sd_greville := true; sd_uniform := false; sd_breaks := [0; 1; 2; 3; 6] |}.
Lemma ex_left_ok : ordered ex_left /\ breaks_are_points ex_left /\ cells ex_left = 3%nat.
Proof. split; [split; [enumerate|cbn; lia]|]. split; [exists []; reflexivity|reflexivity]. Qed.
Lemma ex_right_ok : ordered ex_right /\ breaks_are_points ex_right /\ cells ex_right = 4%nat.
Proof. split; [split; [enumerate|cbn; lia]|]. split; reflexivity. Qed.
Definition ex_uniform (e : extremity) : side :=
  {| sd_x := [1; 3; 5]; sd_ext := e; sd_greville := false; sd_uniform := true; sd_breaks := [1; 3; 5] |}.
Lemma ex_uniform_ok e : ordered (ex_uniform e) /\ breaks_are_points (ex_uniform e) /\ uniform_step (ex_uniform e) 2.
Proof.
  split; [split; [enumerate|cbn; lia]|]. split; [exists []; destruct e; reflexivity|]. split; [lra|].
  intros i Hi. cbn [length sd_x ex_uniform] in *. assert (i = 0 \/ i = 1 \/ i = 2)%nat as [->| [->| ->]] by lia; cbn; lra.
Qed.
Definition ex_fine : side := {| sd_x := [0; 1; 2]; sd_ext := FRONT; sd_greville := false; sd_uniform := true; sd_breaks := [0; 1; 2] |}.
Lemma ex_fine_ok : ordered ex_fine /\ breaks_are_points ex_fine /\ uniform_step ex_fine 1.
Proof.
  split; [split; [enumerate|cbn; lia]|]. split; [exists []; reflexivity|]. split; [lra|].
  intros i Hi. cbn [length sd_x ex_fine] in *. assert (i = 0 \/ i = 1 \/ i = 2)%nat as [->| [->| ->]] by lia; cbn; lra.
Qed.
Definition ex_two : side := {| sd_x := [0; 1; 3]; sd_ext := FRONT; sd_greville := false; sd_uniform := false; sd_breaks := [0; 1; 3] |}.
Lemma ex_two_ok : ordered ex_two /\ breaks_are_points ex_two /\ cells ex_two = 2%nat.
Proof. split; [split; [enumerate|cbn; lia]|]. split; [exists []; reflexivity|reflexivity]. Qed.
Definition ex_one : side := {| sd_x := [0; 1]; sd_ext := FRONT; sd_greville := false; sd_uniform := false; sd_breaks := [0; 1] |}.
Lemma ex_one_ok : ordered ex_one /\ breaks_are_points ex_one.
Proof. split; [split; [enumerate|cbn; lia]|]. exists []; reflexivity. Qed.
(** two cells, with an extra point in the far one *)
Definition ex_two_extra : side := {| sd_x := [0; 1; 2; 3]; sd_ext := FRONT; sd_greville := true; sd_uniform := false; sd_breaks := [0; 1; 3] |}.
Lemma ex_two_extra_ok : ordered ex_two_extra /\ breaks_are_points ex_two_extra /\ cells ex_two_extra = 2%nat.
Proof. split; [split; [enumerate|cbn; lia]|]. split; reflexivity. Qed.
