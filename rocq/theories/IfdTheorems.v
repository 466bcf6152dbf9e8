(** Theorems about the interface derivatives (C68, C69). *)
From Verif Require Import IfdSpec IfdAnalysis OnionProofs IfdProofs IfdMain IfdCase IfdLink IfdUniform LagrangeEvalProofs.
From Coq Require Import ZifyBool.
Open Scope R_scope.

(** ** The relation *)
Theorem non_uniform_relation p1 p2 : ordered p1 -> ordered p2 -> breaks_are_points p1 -> breaks_are_points p2 ->
  sd_uniform p1 && sd_uniform p2 = false ->
  (3 <= cells p1)%nat -> (3 <= cells p2)%nat \/ (cells p2 = 2%nat /\ sd_greville p2 = false) ->
  exists c, calculator p1 p2 = Ok c /\
    (forall s d, global_spline p1 p2 s d -> relation_holds p1 p2 c s d) /\
    (if sd_greville p1 then get_coeff_deriv_patch_1 c = 0 else Rabs (get_coeff_deriv_patch_1 c) < (1 / 2) ^ cells p1) /\
    (if sd_greville p2 then get_coeff_deriv_patch_2 c = 0 else Rabs (get_coeff_deriv_patch_2 c) < 2 * (1 / 2) ^ cells p2).
Proof.
  intros O1 O2 B1 B2 NU N1 N2. rewrite calculator_eq, NU by auto.
  destruct (non_uniform_spec p1 p2 O1 O2 N1 N2) as (c & A & G & Rl & D1 & D2). exists c.
  split; [exact A|]. split; [|split; [exact D1|exact D2]].
  intros s d SP. apply link; auto. left; lia. left; lia.
Qed.
Theorem uniform_relation p1 p2 h : ordered p1 -> ordered p2 -> breaks_are_points p1 -> breaks_are_points p2 ->
  sd_uniform p1 = true -> sd_uniform p2 = true -> sd_greville p1 = false -> sd_greville p2 = false ->
  uniform_step p1 h -> uniform_step p2 h ->
  exists c, calculator p1 p2 = Ok c /\
    (forall s d, global_spline p1 p2 s d -> relation_holds p1 p2 c s d) /\
    Rabs (get_coeff_deriv_patch_1 c) <= (1 / 2) ^ cells p1 /\ Rabs (get_coeff_deriv_patch_2 c) <= (1 / 2) ^ cells p2.
Proof.
  intros O1 O2 B1 B2 F1 F2 G1 G2 U1 U2. rewrite calculator_eq, F1, F2 by auto. cbn [andb].
  destruct (uniform_spec p1 p2 h O1 O2 U1 U2 G1 G2) as (c & A & G & Rl & D1 & D2). exists c.
  split; [exact A|]. split; [|split; [exact D1|exact D2]].
  intros s d SP. apply link; auto.
Qed.

(** ** Approximation with a chosen number of cells *)
Lemma chosen_len n p : length (sd_x (chosen n p)) = Nat.min (n + 1) (length (sd_x p)).
Proof. unfold chosen. cbn [sd_x]. destruct (is_front p); [rewrite firstn_length|rewrite skipn_length]; lia. Qed.
Lemma chosen_point n p k : (k < length (sd_x (chosen n p)))%nat -> point_away (chosen n p) k = point_away p k.
Proof.
  intros H. rewrite !point_pos. pose proof (chosen_len n p) as L. rewrite L in H. unfold pos. rewrite L. unfold chosen, is_front in *. cbn [sd_ext sd_x] in *.
  destruct (sd_ext p).
  - apply nth_firstn_lt. exact H.
  - rewrite nth_skipn_add. f_equal. lia.
Qed.
Lemma chosen_dist n p k : ordered p -> (k < length (sd_x (chosen n p)))%nat -> dist (chosen n p) k = dist p k.
Proof. intros O H. unfold dist. rewrite !chosen_point by lia. reflexivity. Qed.
Lemma chosen_ordered n p : ordered p -> (1 <= n)%nat -> ordered (chosen n p).
Proof.
  intros O Hn. pose proof (cells_lt p O) as CL. pose proof (chosen_len n p) as L. destruct O as [M C]. split.
  - intros i j Hij. rewrite L in Hij. unfold chosen. cbn [sd_x]. destruct (is_front p).
    + rewrite !nth_firstn_lt by lia. apply M. lia.
    + rewrite !nth_skipn_add. apply M. lia.
  - unfold cells. rewrite L. unfold chosen. cbn [sd_greville]. lia.
Qed.
Lemma chosen_breaks n p : breaks_are_points p -> sd_greville p = false -> breaks_are_points (chosen n p).
Proof.
  unfold breaks_are_points. intros B G. rewrite G in B. destruct B as [l B]. unfold chosen, is_front. cbn [sd_greville sd_ext sd_x sd_breaks].
  destruct (sd_ext p).
  - exists (skipn (Nat.min (n + 1) (length (sd_x p))) (sd_x p) ++ l). rewrite app_assoc, firstn_skipn. exact B.
  - exists (l ++ firstn (length (sd_x p) - Nat.min (n + 1) (length (sd_x p))) (sd_x p)). rewrite <- app_assoc, firstn_skipn. exact B.
Qed.
Lemma chosen_cells n p : sd_greville p = false -> (1 <= cells p)%nat -> cells (chosen n p) = Nat.min n (cells p).
Proof. intros G. unfold cells. rewrite chosen_len, G. unfold chosen. cbn [sd_greville]. lia. Qed.
Lemma break_dist_plain p k : sd_greville p = false -> (k <= cells p)%nat -> break_dist p k = dist p k.
Proof.
  intros G H. unfold break_dist, far. destruct (Nat.ltb_spec k (cells p)); [reflexivity|]. f_equal. unfold cells in *. rewrite G in *. lia.
Qed.
Lemma chosen_spline n p1 p2 s d : ordered p1 -> ordered p2 -> (1 <= n)%nat -> sd_greville p1 = false -> sd_greville p2 = false ->
  global_spline p1 p2 s d -> global_spline (chosen n p1) (chosen n p2) s d.
Proof.
  intros O1 O2 Hn G1 G2 [A B L Rr].
  assert (C1 := chosen_cells n p1 G1 (proj2 O1)). assert (C2 := chosen_cells n p2 G2 (proj2 O2)).
  pose proof (cells_lt _ (chosen_ordered n p1 O1 Hn)). pose proof (cells_lt _ (chosen_ordered n p2 O2 Hn)).
  split; auto.
  - intros k Hk. rewrite !(break_dist_plain (chosen n p1)) by (auto; lia). rewrite !chosen_dist by (auto; lia).
    specialize (L k ltac:(lia)). rewrite !(break_dist_plain p1) in L by (auto; lia). exact L.
  - intros k Hk. rewrite !(break_dist_plain (chosen n p2)) by (auto; lia). rewrite !chosen_dist by (auto; lia).
    specialize (Rr k ltac:(lia)). rewrite !(break_dist_plain p2) in Rr by (auto; lia). exact Rr.
Qed.
Theorem approximation p1 p2 n : ordered p1 -> ordered p2 -> breaks_are_points p1 -> breaks_are_points p2 ->
  sd_greville p1 = false -> sd_greville p2 = false -> sd_uniform p1 && sd_uniform p2 = false ->
  (3 <= n <= cells p1)%nat -> (n <= cells p2)%nat ->
  exists c, calculator_cells p1 p2 n = Ok c /\
    forall s d M, global_spline p1 p2 s d -> (forall x, - far p1 <= x <= far p2 -> Rabs (d x) <= M) ->
    forall f1 f2, values_of (chosen n p1) (chosen n p2) s f1 f2 ->
    exists v, get_function_coefficients (chosen n p1) (chosen n p2) c f1 f2 = Ok v /\ Rabs (d 0 - v) <= 3 * (1 / 2) ^ n * M.
Proof.
  intros O1 O2 B1 B2 G1 G2 NU N1 N2.
  assert (C1 := chosen_cells n p1 G1 (proj2 O1)). assert (C2 := chosen_cells n p2 G2 (proj2 O2)).
  assert (Q1 := chosen_ordered n p1 O1 ltac:(lia)). assert (Q2 := chosen_ordered n p2 O2 ltac:(lia)).
  destruct (non_uniform_relation (chosen n p1) (chosen n p2) Q1 Q2 (chosen_breaks n p1 B1 G1) (chosen_breaks n p2 B2 G2)
              NU ltac:(lia) ltac:(lia)) as (c & A & Rl & D1 & D2).
  exists c. split; [exact A|]. intros s d M SP HM f1 f2 V.
  destruct (Rl s d (chosen_spline n p1 p2 s d O1 O2 ltac:(lia) G1 G2 SP) f1 f2 V) as (v & E & EQ).
  exists v. split; [exact E|].
  unfold chosen in D1, D2; cbn [sd_greville] in D1, D2. fold (chosen n p1) in D1. fold (chosen n p2) in D2.
  rewrite C1 in D1. rewrite C2 in D2. rewrite Nat.min_l in D1, D2 by lia.
  assert (FARR : forall p, ordered p -> (n <= cells p)%nat -> sd_greville p = false -> 0 <= far (chosen n p) <= far p).
  { intros p O HN G. pose proof (cells_lt _ O). unfold far. pose proof (chosen_len n p) as L. assert (cells p = (length (sd_x p) - 1)%nat) by (unfold cells; rewrite G; reflexivity).
    rewrite chosen_dist by (auto; lia). rewrite L. replace (Nat.min (n + 1) (length (sd_x p)) - 1)%nat with n by lia.
    split; [unfold dist; apply Rabs_pos|]. destruct (Nat.eq_dec n (length (sd_x p) - 1)) as [->|NE]; [lra|].
    left. apply dist_lt; auto. lia. }
  pose proof (FARR p1 O1 ltac:(lia) G1) as K1. pose proof (FARR p2 O2 ltac:(lia) G2) as K2.
  pose proof (HM (far (chosen n p2)) ltac:(lra)) as M2. pose proof (HM (- far (chosen n p1)) ltac:(lra)) as M1.
  replace (d 0 - v) with (get_coeff_deriv_patch_2 c * d (far (chosen n p2)) + get_coeff_deriv_patch_1 c * d (- far (chosen n p1))) by lra.
  eapply Rle_trans; [apply Rabs_triang|]. rewrite !Rabs_mult.
  assert (0 < (1 / 2) ^ n) by (apply pow_lt; lra).
  pose proof (Rabs_pos (d (far (chosen n p2)))). pose proof (Rabs_pos (d (- far (chosen n p1)))).
  pose proof (Rabs_pos (get_coeff_deriv_patch_1 c)). pose proof (Rabs_pos (get_coeff_deriv_patch_2 c)).
  assert (Rabs (get_coeff_deriv_patch_2 c) * Rabs (d (far (chosen n p2))) <= 2 * (1 / 2) ^ n * M) by (apply Rmult_le_compat; lra).
  assert (Rabs (get_coeff_deriv_patch_1 c) * Rabs (d (- far (chosen n p1))) <= (1 / 2) ^ n * M) by (apply Rmult_le_compat; lra).
  lra.
Qed.

(** ** Rejected grids *)
Lemma check_break_cases p : check_break_points p = Ok tt \/ check_break_points p = Throw.
Proof. unfold check_break_points. destruct (forallb _ _); auto. Qed.
Lemma check_break_throw p b : (sd_greville p = true \/ length (sd_breaks p) = length (sd_x p)) ->
  In b (sd_breaks p) -> (forall x, In x (sd_x p) -> / 10 ^ 15 <= Rabs (b - x)) -> check_break_points p = Throw.
Proof.
  intros HL Hb Hx. unfold check_break_points.
  assert (SEL : (if sd_greville p then sd_breaks p else if is_front p then firstn (length (sd_x p)) (sd_breaks p)
                  else skipn (length (sd_breaks p) - length (sd_x p)) (sd_breaks p)) = sd_breaks p).
  { destruct HL as [->| HL]; [reflexivity|]. destruct (sd_greville p); [reflexivity|]. rewrite <- HL. destruct (is_front p).
    - apply firstn_all.
    - rewrite Nat.sub_diag. reflexivity. }
  rewrite SEL. destruct (forallb _ (sd_breaks p)) eqn:F; [|reflexivity]. exfalso.
  rewrite forallb_forall in F. specialize (F b Hb). apply existsb_exists in F. destruct F as (x & Ix & T).
  specialize (Hx x Ix). destruct (Rlt_dec _ _) as [L|]; [lra|discriminate].
Qed.
Lemma check_additional_cases p : (2 <= length (sd_breaks p))%nat -> (2 <= length (sd_x p))%nat -> check_additional p = Ok tt \/ check_additional p = Throw.
Proof.
  intros A B. unfold check_additional, sd_n.
  assert (R1 : rd (sd_x p) (if is_front p then Z.of_nat (length (sd_x p)) - 2 else 1) = Ok (nth (if is_front p then length (sd_x p) - 2 else 1) (sd_x p) 0)).
  { apply rd_nthd; destruct (is_front p); lia. }
  assert (R2 : rd (sd_breaks p) (if is_front p then Z.of_nat (length (sd_breaks p)) - 2 else 0) = Ok (nth (if is_front p then length (sd_breaks p) - 2 else 0) (sd_breaks p) 0)).
  { apply rd_nthd; destruct (is_front p); lia. }
  assert (R3 : rd (sd_breaks p) (if is_front p then Z.of_nat (length (sd_breaks p)) - 1 else 1) = Ok (nth (if is_front p then length (sd_breaks p) - 1 else 1) (sd_breaks p) 0)).
  { apply rd_nthd; destruct (is_front p); lia. }
  rewrite R1, R2, R3. cbn [bind]. destruct (Rlt_dec _ _); auto. destruct (Rlt_dec _ _); auto.
Qed.
Lemma size_ok p : sizes_agree p -> check_size p = Ok tt.
Proof.
  intros [A B]. unfold check_size, sd_n. rewrite B. destruct (sd_greville p).
  - destruct (Z.eqb_spec (Z.of_nat (length (sd_breaks p) + 1)) (Z.of_nat (length (sd_breaks p)) - 1 + 2)); [reflexivity|lia].
  - destruct (Z.leb_spec (Z.of_nat (length (sd_breaks p) + 0)) (Z.of_nat (length (sd_breaks p)) - 1 + 1)); [reflexivity|lia].
Qed.
Theorem break_point_rejected p1 p2 p b : sizes_agree p1 -> sizes_agree p2 -> p = p1 \/ p = p2 ->
  In b (sd_breaks p) -> (forall x, In x (sd_x p) -> / 10 ^ 15 <= Rabs (b - x)) -> calculator p1 p2 = Throw.
Proof.
  intros S1 S2 HP Hb Hx.
  assert (T : check_break_points p = Throw).
  { apply (check_break_throw p b); auto. destruct HP as [->| ->]; [destruct S1 as [_ S]|destruct S2 as [_ S]];
    match type of S with _ = (_ + if ?g then _ else _)%nat => destruct g; auto; right; lia end. }
  unfold calculator. rewrite (size_ok p1 S1), (size_ok p2 S2). cbn [bind]. destruct HP as [->| ->].
  - rewrite T. reflexivity.
  - destruct (check_break_cases p1) as [->| ->]; cbn [bind]; [|reflexivity]. rewrite T. reflexivity.
Qed.
Theorem extra_point_rejected p1 p2 p : sizes_agree p1 -> sizes_agree p2 -> p = p1 \/ p = p2 -> sd_greville p = true ->
  let nb := length (sd_breaks p) in
  (match sd_ext p with
   | FRONT => ~ (nth (nb - 2) (sd_breaks p) 0 < nth (length (sd_x p) - 2) (sd_x p) 0 < nth (nb - 1) (sd_breaks p) 0)
   | BACK => ~ (nth 0 (sd_breaks p) 0 < nth 1 (sd_x p) 0 < nth 1 (sd_breaks p) 0)
   end) -> calculator p1 p2 = Throw.
Proof.
  intros S1 S2 HP G nb H.
  assert (SP : sizes_agree p) by (destruct HP as [->| ->]; auto).
  assert (T : check_additional p = Throw).
  { destruct SP as [A B]. rewrite G in B. unfold check_additional, sd_n, is_front. fold nb. unfold nb in *. clear nb.
    destruct (sd_ext p); cbv iota beta.
    - rewrite (rd_nthd (sd_x p) 0 (length (sd_x p) - 2)) by lia. rewrite (rd_nthd (sd_breaks p) 0 (length (sd_breaks p) - 2)) by lia.
      rewrite (rd_nthd (sd_breaks p) 0 (length (sd_breaks p) - 1)) by lia. cbn [bind].
      destruct (Rlt_dec _ _); [|reflexivity]. destruct (Rlt_dec _ _); [exfalso; auto|reflexivity].
    - rewrite (rd_nthd (sd_x p) 0 1) by lia. rewrite (rd_nthd (sd_breaks p) 0 0) by lia.
      rewrite (rd_nthd (sd_breaks p) 0 1) by lia. cbn [bind].
      destruct (Rlt_dec _ _); [|reflexivity]. destruct (Rlt_dec _ _); [exfalso; auto|reflexivity]. }
  unfold calculator. rewrite (size_ok p1 S1), (size_ok p2 S2). cbn [bind].
  destruct (check_break_cases p1) as [->| ->]; cbn [bind]; [|reflexivity].
  destruct (check_break_cases p2) as [->| ->]; cbn [bind]; [|reflexivity].
  destruct HP as [->| ->].
  - rewrite G, T. reflexivity.
  - rewrite G, T. destruct S1 as [A1 B1]. destruct (sd_greville p1); cbn [bind]; [|reflexivity].
    destruct (check_additional_cases p1) as [->| ->]; try lia; reflexivity.
Qed.

(** ** Polynomials are splines *)
Lemma cubic_spline p1 p2 c0 c1 c2 c3 : global_spline p1 p2 (cub c0 c1 c2 c3) (cub1 c1 c2 c3).
Proof.
  split.
  - intros x. apply cub_deriv.
  - intros x. eexists. apply cub1_deriv.
  - intros k _. exists c0, c1, c2, c3. intros. reflexivity.
  - intros k _. exists c0, c1, c2, c3. intros. reflexivity.
Qed.
Lemma values_exist p1 p2 s : exists f1 f2, values_of p1 p2 s f1 f2.
Proof.
  exists (map (fun x => s (- Rabs (x - point_away p1 0))) (sd_x p1)), (map (fun x => s (Rabs (x - point_away p2 0))) (sd_x p2)).
  split; [apply map_length|]. split; [apply map_length|]. split; intros i Hi.
  - rewrite (nth_indep _ 0 ((fun x => s (- Rabs (x - point_away p1 0))) 0)) by (rewrite map_length; auto). apply (map_nth (fun x => s (- Rabs (x - point_away p1 0)))).
  - rewrite (nth_indep _ 0 ((fun x => s (Rabs (x - point_away p2 0))) 0)) by (rewrite map_length; auto). apply (map_nth (fun x => s (Rabs (x - point_away p2 0)))).
Qed.

(** ** Two cells on patch 1 *)
Theorem two_cells_wrong p1 p2 : ordered p1 -> ordered p2 -> breaks_are_points p1 -> breaks_are_points p2 ->
  sd_uniform p1 && sd_uniform p2 = false -> cells p1 = 2%nat -> sd_greville p1 = false ->
  (3 <= cells p2)%nat \/ (cells p2 = 2%nat /\ sd_greville p2 = false) ->
  exists c s d, calculator p1 p2 = Ok c /\ global_spline p1 p2 s d /\ ~ relation_holds p1 p2 c s d.
Proof.
  intros O1 O2 B1 B2 NU N1 G1 N2.
  destruct (two_cells_spec p1 p2 O1 O2 N1 G1 N2) as (c & A & G & Rl & NEG).
  exists c, (cub 0 0 1 0), (cub1 0 1 0). rewrite calculator_eq, NU by auto. split; [exact A|].
  pose proof (cubic_spline p1 p2 0 0 1 0) as SP. split; [exact SP|]. intros RH.
  destruct (values_exist p1 p2 (cub 0 0 1 0)) as (f1 & f2 & V). destruct (RH f1 f2 V) as (v & EV & EQ).
  rewrite (function_coefficients p1 p2 O1 O2 c f1 f2 _ G V) in EV.
  pose proof (Rl _ _ _ _ (spline_consistent p1 p2 _ _ O1 O2 ltac:(right; auto) ltac:(left; lia) SP)) as E2. cbv beta in E2.
  rewrite dist_0 in E2.
  match type of EV with Ok ?e = Ok _ => assert (Ev : v = e) by congruence end. rewrite <- Ev in E2.
  unfold get_coeff_deriv_patch_1, get_coeff_deriv_patch_2, far in EQ.
  assert (L1 : length (sd_x p1) = 3%nat) by (unfold cells in N1; rewrite G1 in N1; lia).
  rewrite L1 in EQ. change (3 - 1)%nat with 2%nat in EQ.
  assert (D : dist p1 1 < dist p1 2) by (apply dist_lt; auto; lia).
  unfold cub1 in *. assert (s1 c * (dist p1 1 - dist p1 2) = 0) by lra. nra.
Qed.

(** ** One cell passes the check of the sizes *)
Theorem one_cell_assertion p1 p2 : ordered p1 -> ordered p2 -> breaks_are_points p1 -> breaks_are_points p2 ->
  sd_uniform p1 && sd_uniform p2 = false -> length (sd_x p2) = 2%nat -> calculator p1 p2 = AssertFail.
Proof.
  intros O1 O2 B1 B2 NU L2. rewrite calculator_eq, NU by auto. unfold non_uniform_case.
  pose proof (cells_lt _ O1). destruct O1 as [M1 C1].
  assert (T1 : (sd_n p1 <? 2)%Z = false) by (unfold sd_n; lia). assert (T2 : (sd_n p2 <? 2)%Z = false) by (unfold sd_n; lia).
  rewrite T1, T2. destruct (first_spec p1 p2 (conj M1 C1) O2 ltac:(lia) ltac:(lia)) as (t0 & A0 & _). rewrite A0. cbn [bind].
  unfold second_slot_2, get_cell_lengths, is_front, interface_idx, idx_step, sd_n. rewrite L2. destruct (sd_ext p2); cbn; reflexivity.
Qed.

(** ** Different steps *)
Lemma u_2 : u_seq 2 = 4 * u_seq 1.
Proof. pose proof (u_rec 0) as H. cbn [Nat.add] in H. rewrite u_0 in H. lra. Qed.
Theorem different_steps_wrong p1 p2 h1 h2 : ordered p1 -> ordered p2 -> breaks_are_points p1 -> breaks_are_points p2 ->
  sd_uniform p1 = true -> sd_uniform p2 = true -> sd_greville p1 = false -> sd_greville p2 = false ->
  uniform_step p1 h1 -> uniform_step p2 h2 -> h1 <> h2 -> cells p1 = 2%nat -> cells p2 = 2%nat ->
  exists c s d, calculator p1 p2 = Ok c /\ global_spline p1 p2 s d /\ ~ relation_holds p1 p2 c s d.
Proof.
  intros O1 O2 B1 B2 F1 F2 G1 G2 U1 U2 NE N1 N2.
  destruct (uniform_weights p1 p2 h1 h2 O1 O2 U1 U2 G1 G2) as (c & A & S1 & S2 & GD & W0 & X1 & X2).
  exists c, (cub 0 1 0 0), (cub1 1 0 0). rewrite calculator_eq, F1, F2 by auto. cbn [andb]. split; [exact A|].
  pose proof (cubic_spline p1 p2 0 1 0 0) as SP. split; [exact SP|]. intros RH.
  destruct (values_exist p1 p2 (cub 0 1 0 0)) as (f1 & f2 & V). destruct (RH f1 f2 V) as (v & EV & EQ).
  rewrite (function_coefficients p1 p2 O1 O2 c f1 f2 _ GD V) in EV.
  match type of EV with Ok ?e = Ok _ => assert (Ev : v = e) by congruence end. clear EV.
  assert (L1 : length (sd_x p1) = 3%nat) by (unfold cells in N1; rewrite G1 in N1; lia).
  assert (L2 : length (sd_x p2) = 3%nat) by (unfold cells in N2; rewrite G2 in N2; lia).
  assert (H1 : 0 < h1) by apply U1. assert (H2 : 0 < h2) by apply U2.
  assert (NZ : sqrt 3 <> 0) by (pose proof (sqrt_lt_R0 3 ltac:(lra)); lra).
  unfold E in Ev. rewrite X1, X2 in Ev. unfold get_coeff_deriv_patch_1, get_coeff_deriv_patch_2, cub1 in EQ.
  rewrite S1, S2, Ev in EQ. clear X1 X2 S1 S2 Ev.
  unfold den in *. rewrite L1, L2 in *. change (3 - 1)%nat with 2%nat in *. change (2 - 1)%nat with 1%nat in *.
  cbn [Rsum] in EQ. change (0 + 1)%nat with 1%nat in EQ. change (2 - 1 + 1)%nat with 2%nat in EQ. change (2 - 1 - 1)%nat with 0%nat in EQ.
  rewrite !(uniform_dist p1 h1), !(uniform_dist p2 h2) in EQ by (auto; lia).
  rewrite ?u_2, ?u_0, ?u_1 in EQ. unfold cub in EQ. simpl (INR _) in EQ. rewrite pow_1 in EQ. clear W0.
  replace (4 * (2 * sqrt 3) * (4 * (2 * sqrt 3)) + 4 * (2 * sqrt 3) * (2 * sqrt 3) * (- (1 / 2) * h2 / (h2 + h1)) +
          2 * sqrt 3 * (4 * (2 * sqrt 3)) * (- (1 / 2) * h1 / (h2 + h1))) with (56 * (sqrt 3 * sqrt 3)) in EQ by (field; lra).
  match type of EQ with _ = ?e => assert (EE : e = 6 / 7 * ((h2 * h2 * h2 + h1 * h1 * h1) / (h1 * h2 * (h1 + h2))) + 1 / 7) end.
  { field. repeat split; lra. }
  rewrite EE in EQ. assert (Q : (h2 * h2 * h2 + h1 * h1 * h1) / (h1 * h2 * (h1 + h2)) = 1) by lra.
  assert (P : 0 < h1 * h2 * (h1 + h2)) by (apply Rmult_lt_0_compat; [apply Rmult_lt_0_compat; auto|lra]).
  assert (Q' : h2 * h2 * h2 + h1 * h1 * h1 = h1 * h2 * (h1 + h2)).
  { replace (h2 * h2 * h2 + h1 * h1 * h1) with ((h2 * h2 * h2 + h1 * h1 * h1) / (h1 * h2 * (h1 + h2)) * (h1 * h2 * (h1 + h2))) by (field; lra).
    rewrite Q. ring. }
  assert (Z : (h1 + h2) * ((h1 - h2) * (h1 - h2)) = 0) by lra.
  apply Rmult_integral in Z. destruct Z as [Z|Z]; [lra|]. apply Rmult_integral in Z. apply NE. destruct Z; lra.
Qed.
