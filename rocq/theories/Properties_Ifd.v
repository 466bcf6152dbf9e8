(** Properties C68, C69: derivatives at the interfaces between patches. *)
From Verif Require Import IfdSpec IfdTheorems IfdTwo IfdExamples.
Open Scope R_scope.

(** C68: for every pair of non-uniform grids (any lengths of the cells, any number of cells, the four orientations,
    with or without extra interpolation points in the far cells), the coefficients satisfy the relation between the
    derivatives of EVERY cubic spline on the two patches, and decay geometrically with the number of cells *)
Theorem C68_relation : forall p1 p2, ordered p1 -> ordered p2 -> breaks_are_points p1 -> breaks_are_points p2 ->
  sd_uniform p1 && sd_uniform p2 = false ->
  (3 <= cells p1)%nat -> (3 <= cells p2)%nat \/ (cells p2 = 2%nat /\ sd_greville p2 = false) ->
  exists c, calculator p1 p2 = Ok c /\
    (forall s d, global_spline p1 p2 s d -> relation_holds p1 p2 c s d) /\
    (if sd_greville p1 then get_coeff_deriv_patch_1 c = 0 else Rabs (get_coeff_deriv_patch_1 c) < (1 / 2) ^ cells p1) /\
    (if sd_greville p2 then get_coeff_deriv_patch_2 c = 0 else Rabs (get_coeff_deriv_patch_2 c) < 2 * (1 / 2) ^ cells p2).
Proof. exact non_uniform_relation. Qed.
Print Assumptions C68_relation.
(** non-vacuity: a BACK patch of 3 cells, a FRONT patch of 4 cells with an extra point, and the spline |x|^3 *)
Example C68_relation_example : ordered ex_left /\ ordered ex_right /\ breaks_are_points ex_left /\ breaks_are_points ex_right /\
  cells ex_left = 3%nat /\ cells ex_right = 4%nat /\ global_spline ex_left ex_right abs_cube abs_cube' /\
  exists c, calculator ex_left ex_right = Ok c /\ relation_holds ex_left ex_right c abs_cube abs_cube'.
Proof.
  destruct ex_left_ok as (A & B & C). destruct ex_right_ok as (A' & B' & C').
  split; [exact A|]. split; [exact A'|]. split; [exact B|]. split; [exact B'|]. split; [exact C|]. split; [exact C'|].
  pose proof (abs_cube_spline ex_left ex_right A A') as S. split; [exact S|].
  destruct (C68_relation ex_left ex_right A A' B B' eq_refl) as (c & E & H & _).
  - rewrite C. apply le_n.
  - left. rewrite C'. repeat constructor.
  - exists c. auto.
Qed.

(** C68: the approximation with a chosen number of cells: the error decays geometrically *)
Theorem C68_approximation : forall p1 p2 n, ordered p1 -> ordered p2 -> breaks_are_points p1 -> breaks_are_points p2 ->
  sd_greville p1 = false -> sd_greville p2 = false -> sd_uniform p1 && sd_uniform p2 = false ->
  (3 <= n <= cells p1)%nat -> (n <= cells p2)%nat ->
  exists c, calculator_cells p1 p2 n = Ok c /\
    forall s d M, global_spline p1 p2 s d -> (forall x, - far p1 <= x <= far p2 -> Rabs (d x) <= M) ->
    forall f1 f2, values_of (chosen n p1) (chosen n p2) s f1 f2 ->
    exists v, get_function_coefficients (chosen n p1) (chosen n p2) c f1 f2 = Ok v /\ Rabs (d 0 - v) <= 3 * (1 / 2) ^ n * M.
Proof. exact approximation. Qed.
Print Assumptions C68_approximation.
Example C68_approximation_example : ordered ex_left /\ (3 <= 3 <= cells ex_left)%nat /\
  exists c, calculator_cells ex_left ex_left 3 = Ok c.
Proof.
  destruct ex_left_ok as (A & B & C). split; [exact A|]. split; [rewrite C; split; apply le_n|].
  destruct (C68_approximation ex_left ex_left 3 A A B B eq_refl eq_refl eq_refl) as (c & H & _).
  - rewrite C. split; apply le_n.
  - rewrite C. apply le_n.
  - exists c. exact H.
Qed.

(** C68: a break point which is not an interpolation point is rejected *)
Theorem C68_break_point_rejected : forall p1 p2 p b, sizes_agree p1 -> sizes_agree p2 -> p = p1 \/ p = p2 ->
  In b (sd_breaks p) -> (forall x, In x (sd_x p) -> / 10 ^ 15 <= Rabs (b - x)) -> calculator p1 p2 = Throw.
Proof. exact break_point_rejected. Qed.
Print Assumptions C68_break_point_rejected.
(** C68: an extra interpolation point outside of the far cell is rejected *)
Theorem C68_extra_point_rejected : forall p1 p2 p, sizes_agree p1 -> sizes_agree p2 -> p = p1 \/ p = p2 -> sd_greville p = true ->
  let nb := length (sd_breaks p) in
  (match sd_ext p with
   | FRONT => ~ (nth (nb - 2) (sd_breaks p) 0 < nth (length (sd_x p) - 2) (sd_x p) 0 < nth (nb - 1) (sd_breaks p) 0)
   | BACK => ~ (nth 0 (sd_breaks p) 0 < nth 1 (sd_x p) 0 < nth 1 (sd_breaks p) 0)
   end) -> calculator p1 p2 = Throw.
Proof. exact extra_point_rejected. Qed.
Print Assumptions C68_extra_point_rejected.
Definition ex_bad : side := {| sd_x := [0; 1; 2]; sd_ext := FRONT; sd_greville := false; sd_uniform := false; sd_breaks := [0; 3 / 2; 2] |}.
Definition ex_bad_extra : side := {| sd_x := [0; 1; 2; 4]; sd_ext := BACK; sd_greville := true; sd_uniform := false; sd_breaks := [0; 1; 4] |}.
Example C68_rejected_example : calculator ex_left ex_bad = Throw /\ calculator ex_bad_extra ex_left = Throw.
Proof.
  assert (S : sizes_agree ex_left) by (split; cbn; repeat constructor).
  split.
  - apply (C68_break_point_rejected ex_left ex_bad ex_bad (3 / 2) S); [split; cbn; repeat constructor|auto|cbn; auto|].
    assert (/ 10 ^ 15 <= 1 / 2). { apply Rmult_le_reg_r with (10 ^ 15); [apply pow_lt; lra|]. rewrite Rinv_l by (apply pow_nonzero; lra). simpl. lra. }
    intros x [<-|[<-|[<-|[]]]].
    + rewrite Rabs_pos_eq; lra.
    + rewrite Rabs_pos_eq; lra.
    + rewrite Rabs_left1; lra.
  - apply (C68_extra_point_rejected ex_bad_extra ex_left ex_bad_extra); auto; [split; cbn; repeat constructor|cbn; lra].
Qed.

(** FINDING C68: with exactly two cells on patch 1 (and no extra point) on non-uniform grids, the constructor succeeds
    but the relation of one cell on patch 1 is returned: the relation with the derivative at the far end of patch 1 is
    false.  The slot [2] of the recursion is updated after the two first cells of patch 2 (lines 623-627) but not after
    those of patch 1 (lines 664-692), and the recursion loop does not run with two cells.  Swapping the patches works. *)
Theorem C68_two_cells_refuted : forall p1 p2, ordered p1 -> ordered p2 -> breaks_are_points p1 -> breaks_are_points p2 ->
  sd_uniform p1 && sd_uniform p2 = false -> cells p1 = 2%nat -> sd_greville p1 = false ->
  (3 <= cells p2)%nat \/ (cells p2 = 2%nat /\ sd_greville p2 = false) ->
  exists c s d, calculator p1 p2 = Ok c /\ global_spline p1 p2 s d /\ ~ relation_holds p1 p2 c s d.
Proof. exact two_cells_wrong. Qed.
Print Assumptions C68_two_cells_refuted.
Example C68_two_cells_example : ordered ex_two /\ breaks_are_points ex_two /\ cells ex_two = 2%nat /\
  sd_uniform ex_two && sd_uniform ex_right = false.
Proof. destruct ex_two_ok as (A & B & C). auto. Qed.

(** FINDING C68: with two cells and an extra interpolation point on one of the patches, the constructor succeeds but the
    relation is false (already for s(x) = x^2), whatever the grids and the orientations.  The second cell of the patch is
    eliminated before the loop as if the extra point were a break point (lines 591-621, 664-692), then the correction of the last cell
    (lines 837-951, with n = 1) takes the two slots for those of the points n-1 and n, which are those of the points
    n and n+1. *)
Theorem C68_two_cells_extra_1_refuted : forall p1 p2, ordered p1 -> ordered p2 -> breaks_are_points p1 -> breaks_are_points p2 ->
  sd_uniform p1 && sd_uniform p2 = false -> sd_greville p1 = true -> cells p1 = 2%nat ->
  (3 <= cells p2)%nat \/ (cells p2 = 2%nat /\ sd_greville p2 = false) ->
  exists c s d, calculator p1 p2 = Ok c /\ global_spline p1 p2 s d /\ ~ relation_holds p1 p2 c s d.
Proof. exact two_extra_wrong_1. Qed.
Print Assumptions C68_two_cells_extra_1_refuted.
Theorem C68_two_cells_extra_2_refuted : forall p1 p2, ordered p1 -> ordered p2 -> breaks_are_points p1 -> breaks_are_points p2 ->
  sd_uniform p1 && sd_uniform p2 = false -> sd_greville p2 = true -> cells p2 = 2%nat -> (3 <= cells p1)%nat ->
  exists c s d, calculator p1 p2 = Ok c /\ global_spline p1 p2 s d /\ ~ relation_holds p1 p2 c s d.
Proof. exact two_extra_wrong_2. Qed.
Print Assumptions C68_two_cells_extra_2_refuted.
Example C68_two_cells_extra_example :
  (exists c s d, calculator ex_two_extra ex_left = Ok c /\ global_spline ex_two_extra ex_left s d /\ ~ relation_holds ex_two_extra ex_left c s d) /\
  (exists c s d, calculator ex_left ex_two_extra = Ok c /\ global_spline ex_left ex_two_extra s d /\ ~ relation_holds ex_left ex_two_extra c s d).
Proof.
  destruct ex_left_ok as (A & B & C). destruct ex_two_extra_ok as (A' & B' & C'). split.
  - apply (C68_two_cells_extra_1_refuted ex_two_extra ex_left A' A B' B eq_refl eq_refl C'). left. rewrite C. apply le_n.
  - apply (C68_two_cells_extra_2_refuted ex_left ex_two_extra A A' B B' eq_refl eq_refl C'). rewrite C. apply le_n.
Qed.

(** FINDING C68: the check "Please provide at least 2 cells" (lines 529-534) compares the number of points with 2, so
    one cell passes it and the run stops at the assertion of get_cell_lengths (or reads outside of the range when the
    assertions are compiled out). *)
Theorem C68_one_cell_refuted : forall p1 p2, ordered p1 -> ordered p2 -> breaks_are_points p1 -> breaks_are_points p2 ->
  sd_uniform p1 && sd_uniform p2 = false -> length (sd_x p2) = 2%nat -> calculator p1 p2 = AssertFail.
Proof. exact one_cell_assertion. Qed.
Print Assumptions C68_one_cell_refuted.
Example C68_one_cell_example : calculator ex_left ex_one = AssertFail.
Proof.
  destruct ex_left_ok as (A & B & _). destruct ex_one_ok as (A' & B').
  exact (C68_one_cell_refuted ex_left ex_one A A' B B' eq_refl eq_refl).
Qed.

(** C69: the explicit formula for two uniform patches of the same step: same relation, for any number of cells
    (one included) and the four orientations *)
Theorem C69_uniform_relation : forall p1 p2 h, ordered p1 -> ordered p2 -> breaks_are_points p1 -> breaks_are_points p2 ->
  sd_uniform p1 = true -> sd_uniform p2 = true -> sd_greville p1 = false -> sd_greville p2 = false ->
  uniform_step p1 h -> uniform_step p2 h ->
  exists c, calculator p1 p2 = Ok c /\
    (forall s d, global_spline p1 p2 s d -> relation_holds p1 p2 c s d) /\
    Rabs (get_coeff_deriv_patch_1 c) <= (1 / 2) ^ cells p1 /\ Rabs (get_coeff_deriv_patch_2 c) <= (1 / 2) ^ cells p2.
Proof. exact uniform_relation. Qed.
Print Assumptions C69_uniform_relation.
Example C69_uniform_example : exists c, calculator (ex_uniform FRONT) (ex_uniform BACK) = Ok c /\
  relation_holds (ex_uniform FRONT) (ex_uniform BACK) c abs_cube abs_cube'.
Proof.
  destruct (ex_uniform_ok FRONT) as (A & B & C). destruct (ex_uniform_ok BACK) as (A' & B' & C').
  destruct (C69_uniform_relation _ _ 2 A A' B B' eq_refl eq_refl eq_refl eq_refl C C') as (c & E & H & _).
  exists c. split; [exact E|]. apply H. apply abs_cube_spline; assumption.
Qed.

(** FINDING C69: the explicit formula is wrong when the two uniform steps differ, although the class is documented for
    patches which are uniform one by one ("uniform per patch"): get_cell_lengths called with the interface index of
    patch 1 (line 978) returns the length of the cell of patch 2 as the left length and that of patch 1 as the right
    one (lines 1083-1096: left = other patch).  Refuted for every pair of steps with two cells on each patch, by the
    spline s(x) = x. *)
Theorem C69_different_steps_refuted : forall p1 p2 h1 h2, ordered p1 -> ordered p2 -> breaks_are_points p1 -> breaks_are_points p2 ->
  sd_uniform p1 = true -> sd_uniform p2 = true -> sd_greville p1 = false -> sd_greville p2 = false ->
  uniform_step p1 h1 -> uniform_step p2 h2 -> h1 <> h2 -> cells p1 = 2%nat -> cells p2 = 2%nat ->
  exists c s d, calculator p1 p2 = Ok c /\ global_spline p1 p2 s d /\ ~ relation_holds p1 p2 c s d.
Proof. exact different_steps_wrong. Qed.
Print Assumptions C69_different_steps_refuted.
Example C69_different_steps_example : exists c s d,
  calculator (ex_uniform BACK) ex_fine = Ok c /\ global_spline (ex_uniform BACK) ex_fine s d /\ ~ relation_holds (ex_uniform BACK) ex_fine c s d.
Proof.
  destruct (ex_uniform_ok BACK) as (A & B & C). destruct ex_fine_ok as (A' & B' & C').
  apply (C69_different_steps_refuted _ _ 2 1 A A' B B' eq_refl eq_refl eq_refl eq_refl C C'); [lra|reflexivity|reflexivity].
Qed.
