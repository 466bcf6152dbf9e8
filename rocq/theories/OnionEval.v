(** Evaluation of splines on an onion geometry (C54). *)
From Verif Require Import OnionModel OnionSpec OnionProofs RestrictProofs MathSpec.
From Coq Require Import ZifyBool.
Open Scope R_scope.

Lemma for_res_sum n (F : nat -> res R) (g : nat -> R) : (forall i, (i < n)%nat -> F i = Ok (g i)) ->
  forall y, for_res n (fun i y => let* a := F i in Ok (y + a)) y = Ok (y + Rsum n g).
Proof.
  intros H y. induction n as [|n IH]; cbn [for_res Rsum]; [f_equal; lra|].
  rewrite IH by (intros; apply H; lia). cbn [bind]. rewrite H by lia. cbn [bind]. f_equal. lra.
Qed.
Lemma for_res_ext {S} n (f g : nat -> S -> res S) s : (forall i t, (i < n)%nat -> f i t = g i t) -> for_res n f s = for_res n g s.
Proof.
  intros H. induction n as [|n IH]; cbn [for_res]; [reflexivity|]. rewrite IH by (intros; apply H; lia).
  destruct (for_res n g s); cbn [bind]; auto.
Qed.

Lemma Rsum_window n jmin d (F : nat -> R) : (jmin + d < n)%nat ->
  Rsum n (fun i => if ((jmin <=? i) && (i <=? jmin + d))%nat%bool then F i else 0) = Rsum (d + 1) (fun k => F (jmin + k)%nat).
Proof.
  intros H. replace n with (jmin + ((d + 1) + (n - jmin - d - 1)))%nat by lia.
  rewrite (Rsum_app jmin), (Rsum_app (d + 1)). rewrite (Rsum_zero jmin) by (intros i Hi; replace (jmin <=? i)%nat with false by lia; reflexivity).
  rewrite (Rsum_zero (n - jmin - d - 1)).
  2:{ intros i Hi. replace (jmin + (d + 1 + i) <=? jmin + d)%nat with false by lia. rewrite Bool.andb_false_r. reflexivity. }
  rewrite Rplus_0_l, Rplus_0_r. apply Rsum_ext. intros i Hi.
  replace (jmin <=? jmin + i)%nat with true by lia. replace (jmin + i <=? jmin + d)%nat with true by lia. reflexivity.
Qed.

Lemma eval_ok p s d1 d2 r t : basis_ok (o_b1 p) -> basis_ok (o_b2 p) ->
  b_rmin (o_b1 p) <= r <= b_rmin (o_b1 p) + b_len (o_b1 p) ->
  b_rmin (o_b2 p) <= t <= b_rmin (o_b2 p) + b_len (o_b2 p) ->
  eval_no_bc d1 d2 p (r, t) s = Ok (spline_value p s d1 d2 r t).
Proof.
  intros [_ H1] [_ H2] Hr Ht.
  destruct (H1 d1 r Hr) as [j1 [v1 [E1 L1]]]. destruct (H2 d2 t Ht) as [j2 [v2 [E2 L2]]].
  unfold eval_no_bc. cbn [fst snd]. rewrite E1, E2.
  set (g := fun i => Rsum (b_deg (o_b2 p) + 1) (fun j => s (j1 + i)%nat (j2 + j)%nat * v1 i * v2 j)).
  transitivity (@Ok R (0 + Rsum (b_deg (o_b1 p) + 1) g)).
  - rewrite <- (for_res_sum (b_deg (o_b1 p) + 1) (fun i => Ok (g i)) g) by auto.
    apply for_res_ext. intros i y Hi. cbn [bind].
    unfold g.
    rewrite <- (for_res_sum (b_deg (o_b2 p) + 1) (fun j => let* a := coef_at p s (j1 + i) (j2 + j) in Ok (a * v1 i * v2 j))
                 (fun j => s (j1 + i)%nat (j2 + j)%nat * v1 i * v2 j)).
    + apply for_res_ext. intros j z Hj. destruct (coef_at p s (j1 + i) (j2 + j)); reflexivity.
    + intros j Hj. unfold coef_at. replace (_ <? _)%nat with true by lia.
      replace (j2 + j <? b_n (o_b2 p))%nat with true by lia. reflexivity.
  - f_equal. rewrite Rplus_0_l. unfold spline_value, basis_fun. rewrite E1, E2.
    symmetry.
    rewrite (Rsum_ext _ _ (fun i => if ((j1 <=? i) && (i <=? j1 + b_deg (o_b1 p)))%nat%bool
       then Rsum (b_n (o_b2 p)) (fun j => s i j * v1 (i - j1)%nat *
              (if ((j2 <=? j) && (j <=? j2 + b_deg (o_b2 p)))%nat%bool then v2 (j - j2)%nat else 0)) else 0)).
    2:{ intros i _. destruct ((j1 <=? i) && (i <=? j1 + b_deg (o_b1 p)))%nat%bool; [reflexivity|].
        apply Rsum_zero. intros. ring. }
    rewrite (Rsum_window (b_n (o_b1 p)) j1 (b_deg (o_b1 p))) by lia.
    apply Rsum_ext. intros i Hi. unfold g. replace (j1 + i - j1)%nat with i by lia.
    rewrite (Rsum_ext _ _ (fun j => if ((j2 <=? j) && (j <=? j2 + b_deg (o_b2 p)))%nat%bool
        then s (j1 + i)%nat j * v1 i * v2 (j - j2)%nat else 0)).
    2:{ intros j _. destruct ((j2 <=? j) && (j <=? j2 + b_deg (o_b2 p)))%nat%bool; ring. }
    rewrite (Rsum_window (b_n (o_b2 p)) j2 (b_deg (o_b2 p)) (fun j => s (j1 + i)%nat j * v1 i * v2 (j - j2)%nat)) by lia.
    apply Rsum_ext. intros j Hj. replace (j2 + j - j2)%nat with j by lia. ring.
Qed.

(** ** dispatching *)
Lemma dispatch_hit d1 d2 ext all : forall todo test c k p s,
  nth_error todo k = Some (p, s) ->
  dispatch d1 d2 ext all todo test c (test + Z.of_nat k) = eval_no_bc d1 d2 p (replace_periodic_coord_inside p c) s.
Proof.
  induction todo as [|[q u] todo IH]; intros test c k p s H; [destruct k; discriminate|].
  cbn [dispatch]. destruct k as [|k].
  - injection H as -> ->. replace (test + Z.of_nat 0 =? test)%Z with true by lia. reflexivity.
  - replace (test + Z.of_nat (S k) =? test)%Z with false by lia.
    replace (test + Z.of_nat (S k))%Z with (test + 1 + Z.of_nat k)%Z by lia. apply IH. exact H.
Qed.
Lemma dispatch_out d1 d2 ext all : forall todo test c k, (k < 0)%Z -> (0 <= test)%Z ->
  dispatch d1 d2 ext all todo test c k =
  if (d1 || d2)%bool then Throw else let* any := rd all 0 in ext (replace_periodic_coord_inside (fst any) c) all k.
Proof.
  induction todo as [|[q u] todo IH]; intros test c k Hk Ht; cbn [dispatch].
  - replace (k >=? 0)%Z with false by lia. reflexivity.
  - replace (k =? test)%Z with false by lia. apply IH; lia.
Qed.

Lemma all_ok_wide ps : all_ok ps -> wide ps.
Proof. intros H p Hp. apply (H p Hp). Qed.

Lemma restrict_inside b x : basis_ok b -> b_per b = true ->
  b_rmin b <= restrict_coord b x <= b_rmin b + b_len b /\ same_angle (b_len b) (restrict_coord b x) x /\
  (b_rmin b <= x <= b_rmin b + b_len b -> restrict_coord b x = x).
Proof.
  intros [HL _] HP. unfold restrict_coord. rewrite HP. apply bspline_restrict_spec; auto.
Qed.

Lemma map_nth_inv {A B} (f : A -> B) l k y : nth_error (map f l) k = Some y -> exists x, nth_error l k = Some x /\ f x = y.
Proof.
  revert k; induction l as [|a l IH]; intros [|k] H; simpl in *; try discriminate.
  - injection H as <-. eauto.
  - apply IH; auto.
Qed.

Section Eval.
Variables to_physical to_logical : R * R -> R * R.

(** inside: the spline of the ring of the point, at its radius and at its angle in the domain *)
Theorem evaluate_inside ps d1 d2 ext r t k p s :
  all_ok (map fst ps) -> rings (map fst ps) ->
  fst (to_logical (to_physical (r, t))) = r ->
  nth_error ps k = Some (p, s) -> in_ring (map fst ps) k r ->
  exists t', b_rmin (o_b2 p) <= t' <= b_rmin (o_b2 p) + b_len (o_b2 p) /\ same_angle (b_len (o_b2 p)) t' t /\
    (b_rmin (o_b2 p) <= t <= b_rmin (o_b2 p) + b_len (o_b2 p) -> t' = t) /\
    evaluate to_physical to_logical (S (length ps)) d1 d2 ext ps (r, t) = Ok (spline_value p s d1 d2 r t').
Proof.
  intros HA HR HM Hk HI.
  assert (Hne : map fst ps <> []) by (destruct ps; [destruct k; discriminate|discriminate]).
  destruct (radii_ok _ Hne) as [[_ E]|[C _]]; [|exfalso; apply C; apply rings_nearly; auto].
  pose proof (locate_exact _ r _ Hne (all_ok_wide _ HA) HR E) as [L _].
  rewrite map_length in L. apply L in HI as HL.
  assert (Hp : nth_error (map fst ps) k = Some p) by (rewrite nth_error_map, Hk; reflexivity).
  assert (HP : patch_ok p) by (apply HA; eapply nth_error_In; eauto).
  destruct HP as [B1 [B2 [P1 [P2 [M1 [M2 _]]]]]].
  destruct (restrict_inside (o_b2 p) t B2 P2) as [T1 [T2 T3]].
  exists (restrict_coord (o_b2 p) t). repeat split; try apply T1; auto.
  unfold evaluate. rewrite E. cbn [bind]. unfold get_patch_idx. rewrite HM, HL. cbn [bind].
  replace (Z.of_nat k <? 0)%Z with false by lia. cbn [andb].
  pose proof (dispatch_hit d1 d2 ext ps ps 0 (r, t) k p s Hk) as D. cbn [Z.add] in D.
  replace (0 + Z.of_nat k)%Z with (Z.of_nat k) in D by lia. rewrite D.
  unfold replace_periodic_coord_inside. cbn [fst snd].
  replace (restrict_coord (o_b1 p) r) with r by (unfold restrict_coord; rewrite P1; reflexivity).
  apply eval_ok; auto.
  destruct HI as [p' [Hp' [A B]]]. assert (p' = p) by congruence. subst p'. rewrite M2, M1.
  destruct B as [B|[B _]]; lra.
Qed.

(** outside, derivatives: the program stops *)
Theorem evaluate_deriv_outside ps d1 d2 ext r t :
  all_ok (map fst ps) -> rings (map fst ps) -> ps <> [] ->
  fst (to_logical (to_physical (r, t))) = r -> (d1 || d2)%bool = true ->
  (r < first_radius (map fst ps) \/ last_radius (map fst ps) < r) ->
  evaluate to_physical to_logical (S (length ps)) d1 d2 ext ps (r, t) = Throw.
Proof.
  intros HA HR Hnil HM Hd HO.
  assert (Hne : map fst ps <> []) by (destruct ps; [congruence|discriminate]).
  destruct (radii_ok _ Hne) as [[_ E]|[C _]]; [|exfalso; apply C; apply rings_nearly; auto].
  pose proof (locate_exact _ r _ Hne (all_ok_wide _ HA) HR E) as [_ [L1 [L2 _]]].
  rewrite map_length in L1, L2.
  unfold evaluate. rewrite E. cbn [bind]. unfold get_patch_idx. rewrite HM, Hd.
  destruct HO as [HO|HO]; [apply L2 in HO|apply L1 in HO]; rewrite HO; reflexivity.
Qed.

(** outside, values: the extrapolation rule *)
Theorem evaluate_outside ps ext r t :
  all_ok (map fst ps) -> rings (map fst ps) -> ps <> [] ->
  fst (to_logical (to_physical (r, t))) = r ->
  (r < first_radius (map fst ps) \/ last_radius (map fst ps) < r) ->
  exists p s, nth_error ps 0 = Some (p, s) /\
  evaluate to_physical to_logical (S (length ps)) false false ext ps (r, t) =
  ext (r, restrict_coord (o_b2 p) t) ps (if Rlt_dec r (first_radius (map fst ps)) then outside_rmin_domain else outside_rmax_domain).
Proof.
  intros HA HR Hnil HM HO.
  assert (Hne : map fst ps <> []) by (destruct ps; [congruence|discriminate]).
  destruct (radii_ok _ Hne) as [[_ E]|[C _]]; [|exfalso; apply C; apply rings_nearly; auto].
  pose proof (locate_exact _ r _ Hne (all_ok_wide _ HA) HR E) as [_ [L1 [L2 _]]].
  rewrite map_length in L1, L2.
  destruct ps as [|[p s] rest] eqn:EP; [congruence|]. rewrite <- EP in *. exists p, s. split; [rewrite EP; reflexivity|].
  assert (R0 : rd ps 0 = Ok (p, s)) by (rewrite EP; reflexivity).
  assert (PO : patch_ok p) by (apply HA; rewrite EP; left; reflexivity).
  assert (Q : replace_periodic_coord_inside p (r, t) = (r, restrict_coord (o_b2 p) t)).
  { unfold replace_periodic_coord_inside. cbn [fst snd]. f_equal. unfold restrict_coord.
    destruct PO as [_ [_ [-> _]]]. reflexivity. }
  unfold evaluate. rewrite E. cbn [bind]. unfold get_patch_idx. rewrite HM.
  destruct (Rlt_dec r (first_radius (map fst ps))) as [G|G].
  - apply L2 in G. rewrite G. cbn [bind orb]. rewrite Bool.andb_false_r, dispatch_out by lia. cbn [orb]. rewrite R0. cbn [bind fst].
    rewrite Q. reflexivity.
  - destruct HO as [HO|HO]; [lra|]. apply L1 in HO. rewrite HO. cbn [bind orb]. rewrite Bool.andb_false_r, dispatch_out by lia. cbn [orb].
    rewrite R0. cbn [bind fst]. rewrite Q. reflexivity.
Qed.

(** the null rule gives 0 *)
Corollary evaluate_null ps r t :
  all_ok (map fst ps) -> rings (map fst ps) -> ps <> [] ->
  fst (to_logical (to_physical (r, t))) = r ->
  (r < first_radius (map fst ps) \/ last_radius (map fst ps) < r) ->
  evaluate to_physical to_logical (S (length ps)) false false null_rule ps (r, t) = Ok 0.
Proof.
  intros HA HR Hnil HM HO. destruct (evaluate_outside ps null_rule r t HA HR Hnil HM HO) as [p [s [_ ->]]].
  unfold null_rule. destruct (Rlt_dec _ _); reflexivity.
Qed.

Lemma last_map_fst (ps : list (opatch * (nat -> nat -> R))) : ps <> [] -> exists q u, nth_error ps (length ps - 1) = Some (q, u) /\
   last_radius (map fst ps) = o_rmax q.
Proof.
  intros H. destruct (exists_last H) as [l [[q u] ->]]. exists q, u. rewrite app_length. cbn [length].
  replace (length l + 1 - 1)%nat with (length l) by lia. rewrite nth_error_app2, Nat.sub_diag by lia.
  split; [reflexivity|]. unfold last_radius. rewrite map_app. cbn [map fst]. rewrite last_last. reflexivity.
Qed.

(** the constant rule: the value of the innermost (outermost) spline on the inner (outer) boundary at
    the angle of the coordinate *)
Corollary evaluate_constant ps r t tmin tlen :
  all_ok (map fst ps) -> rings (map fst ps) -> same_theta (map fst ps) tmin tlen -> ps <> [] ->
  fst (to_logical (to_physical (r, t))) = r ->
  let rule := constant_rule (first_radius (map fst ps)) (last_radius (map fst ps)) in
  exists t', tmin <= t' <= tmin + tlen /\ same_angle tlen t' t /\
  (forall p s, nth_error ps 0 = Some (p, s) -> r < first_radius (map fst ps) ->
    evaluate to_physical to_logical (S (length ps)) false false rule ps (r, t) = Ok (spline_value p s false false (o_rmin p) t')) /\
  (forall p s, nth_error ps (length ps - 1) = Some (p, s) -> last_radius (map fst ps) < r ->
    evaluate to_physical to_logical (S (length ps)) false false rule ps (r, t) = Ok (spline_value p s false false (o_rmax p) t')).
Proof.
  intros HA HR HT Hnil HM rule.
  assert (Hlen : (0 < length ps)%nat) by (destruct ps; [congruence|simpl; lia]).
  destruct (nth_error ps 0) as [[p0 s0]|] eqn:E0; [|apply nth_error_None in E0; lia].
  assert (I0 : In p0 (map fst ps)) by (apply in_map_iff; exists (p0, s0); split; [reflexivity|eapply nth_error_In; eauto]).
  destruct (HA p0 I0) as [B1 [B2 [P1 [P2 [M1 [M2 W]]]]]]. destruct (HT p0 I0) as [T1 T2].
  destruct (restrict_inside (o_b2 p0) t B2 P2) as [R1 [R2 _]]. rewrite T1, T2 in R1. rewrite T2 in R2.
  exists (restrict_coord (o_b2 p0) t). split; [exact R1|]. split; [exact R2|].
  assert (FR : first_radius (map fst ps) = o_rmin p0) by (destruct ps as [|[q u] ps']; [discriminate|]; injection E0 as -> ->; reflexivity).
  assert (FL : first_radius (map fst ps) < last_radius (map fst ps)).
  { assert (Hne : map fst ps <> []) by (destruct ps; [congruence|discriminate]).
    rewrite <- last_radius_nth by auto. rewrite map_length.
    apply (radii_inc (map fst ps) (rings_nearly _ HR) (all_ok_wide _ HA) Hne 0%nat). rewrite map_length. lia. }
  split.
  - intros p s H Hr. assert (p = p0 /\ s = s0) as [-> ->] by (split; congruence).
    destruct (evaluate_outside ps rule r t HA HR Hnil HM (or_introl Hr)) as [q [u [E ->]]].
    assert (q = p0) by congruence. subst q.
    destruct (Rlt_dec _ _); [|contradiction]. unfold rule, constant_rule.
    change (outside_rmin_domain =? outside_rmin_domain)%Z with true. cbn [orb check bind].
    change 0%Z with (Z.of_nat 0). rewrite (rd_nth_some ps 0 _ E0). cbn [bind fst snd].
    rewrite FR. apply eval_ok; auto; rewrite ?T1, ?T2; auto. rewrite M2, M1. pose proof tol_pos. lra.
  - intros p s H Hr.
    destruct (evaluate_outside ps rule r t HA HR Hnil HM (or_intror Hr)) as [q [u [E ->]]].
    assert (q = p0) by congruence. subst q.
    destruct (Rlt_dec _ _); [lra|]. unfold rule, constant_rule.
    change (outside_rmax_domain =? outside_rmin_domain)%Z with false.
    change (outside_rmax_domain =? outside_rmax_domain)%Z with true. cbn [orb check bind].
    replace (Z.of_nat (length ps) - 1)%Z with (Z.of_nat (length ps - 1)) by lia.
    rewrite (rd_nth_some ps _ _ H). cbn [bind fst snd].
    destruct (last_map_fst ps Hnil) as [q [w [E1 E2]]]. assert (q = p) by congruence. subst q. rewrite E2.
    assert (I1 : In p (map fst ps)) by (apply in_map_iff; exists (p, s); split; [reflexivity|eapply nth_error_In; eauto]).
    destruct (HA p I1) as [C1 [C2 [Q1 [Q2 [N1 [N2 W']]]]]]. destruct (HT p I1) as [S1 S2].
    apply eval_ok; auto; rewrite ?S1, ?S2; auto. rewrite N2. rewrite N1. pose proof tol_pos. lra.
Qed.

(** fields of coordinates: every element is the value at its coordinate *)
Theorem apply_ok ps d1 d2 ext m coords values vals : length values = m ->
  (forall i, (i < m)%nat -> evaluate to_physical to_logical (S (length ps)) d1 d2 ext ps (coords i) = Ok (vals i)) ->
  apply_evaluator to_physical to_logical (S (length ps)) d1 d2 ext ps m coords values = Ok (map vals (seq 0 m)).
Proof.
  intros HL HV. unfold apply_evaluator. rewrite HL, Nat.eqb_refl. cbn [check bind].
  assert (G : forall k, (k <= m)%nat -> for_res k (fun i v => let* y := evaluate to_physical to_logical (S (length ps)) d1 d2 ext ps (coords i) in
     wr v (Z.of_nat i) y) values = Ok (map vals (seq 0 k) ++ skipn k values)).
  { induction k as [|k IH]; intros Hk; [reflexivity|]. cbn [for_res]. rewrite IH by lia. cbn [bind].
    rewrite HV by lia. cbn [bind].
    destruct (skipn k values) as [|x tl] eqn:E.
    - exfalso. assert (length (skipn k values) = 0%nat) by (rewrite E; reflexivity). rewrite skipn_length in H. lia.
    - rewrite wr_at by (rewrite map_length, seq_length; reflexivity).
      rewrite seq_S, map_app. cbn [map]. rewrite <- app_assoc. cbn [app plus]. f_equal. f_equal. f_equal.
      assert (T : tl = skipn 1 (skipn k values)) by (rewrite E; reflexivity).
      rewrite T. clear. revert k. induction values as [|v vs IH]; intros [|k]; try reflexivity. cbn [skipn] in *. apply IH. }
  rewrite (G m) by lia. rewrite skipn_all2 by lia. rewrite app_nil_r. reflexivity.
Qed.
Theorem apply_aborts ps d1 d2 ext m coords values i :  (i < m)%nat -> length values = m ->
  (forall j, (j < i)%nat -> exists y, evaluate to_physical to_logical (S (length ps)) d1 d2 ext ps (coords j) = Ok y) ->
  evaluate to_physical to_logical (S (length ps)) d1 d2 ext ps (coords i) = Throw ->
  apply_evaluator to_physical to_logical (S (length ps)) d1 d2 ext ps m coords values = Throw.
Proof.
  intros Hi HL Hj HT. unfold apply_evaluator. rewrite HL, Nat.eqb_refl. cbn [check bind].
  assert (G : forall k, (k <= i)%nat -> exists v, length v = m /\ for_res k (fun i v => let* y := evaluate to_physical to_logical (S (length ps)) d1 d2 ext ps (coords i) in
     wr v (Z.of_nat i) y) values = Ok v).
  { induction k as [|k IH]; intros Hk; [exists values; auto|]. cbn [for_res].
    destruct (IH ltac:(lia)) as [v [Lv Ev]]. rewrite Ev. cbn [bind]. destruct (Hj k ltac:(lia)) as [y Ey]. rewrite Ey. cbn [bind].
    rewrite wr_ok by lia. eexists. split; [|reflexivity]. rewrite replace_nth_length. auto. }
  assert (G2 : forall k, (i < k)%nat -> for_res k (fun i v => let* y := evaluate to_physical to_logical (S (length ps)) d1 d2 ext ps (coords i) in
     wr v (Z.of_nat i) y) values = Throw).
  { induction k as [|k IH]; intros Hk; [lia|]. cbn [for_res]. destruct (Nat.eq_dec i k) as [->|].
    - destruct (G k ltac:(lia)) as [v [_ ->]]. cbn [bind]. rewrite HT. reflexivity.
    - rewrite IH by lia. reflexivity. }
  apply G2; auto.
Qed.
End Eval.

(** ** integrals: patch k's integral is written at k *)
Theorem integrate_ok ps out : length out = length ps ->
  integrate_from 0 ps out = Ok (map (fun ps => apply_integrate (fst ps) (snd ps)) ps).
Proof.
  assert (G : forall l done rest, length rest = length l ->
    integrate_from (Z.of_nat (length done)) l (done ++ rest) = Ok (done ++ map (fun ps => apply_integrate (fst ps) (snd ps)) l)).
  { induction l as [|[p s] l IH]; intros done rest H; [destruct rest; [reflexivity|discriminate]|].
    destruct rest as [|x rest]; [discriminate|]. cbn [integrate_from map fst snd].
    rewrite wr_at by reflexivity. cbn [bind].
    specialize (IH (done ++ [apply_integrate p s]) rest ltac:(simpl in H; lia)).
    rewrite app_length in IH. cbn [length] in IH.
    replace (Z.of_nat (length done + 1)) with (Z.of_nat (length done) + 1)%Z in IH by lia.
    rewrite <- !app_assoc in IH. exact IH. }
  intros H. apply (G ps [] out H).
Qed.

(** ** norms *)
Lemma fold_max l : forall a, let m := fold_left Rmax l a in a <= m /\ (forall x, In x l -> x <= m) /\ (m = a \/ In m l).
Proof.
  induction l as [|x l IH]; intros a m.
  - subst m. cbn. repeat split; [lra|tauto|auto].
  - subst m. cbn [fold_left]. destruct (IH (Rmax a x)) as [A [B C]].
    split; [apply Rle_trans with (Rmax a x); [apply Rmax_l|exact A]|]. split.
    + intros y [<-|H]; [apply Rle_trans with (Rmax a x); [apply Rmax_r|exact A]|auto].
    + destruct C as [C|C]; [|right; right; auto]. destruct (Rmax_case_strong a x (fun z => z = a \/ z = x)) as [D|D]; auto.
      * left. congruence.
      * right; left. congruence.
Qed.
Lemma fold_left_map {A B C} (f : C -> B -> C) (g : A -> B) l c : fold_left f (map g l) c = fold_left (fun c a => f c (g a)) l c.
Proof. revert c; induction l as [|x l IH]; intros c; simpl; auto. Qed.
Lemma norm_field_max f : is_max (map Rabs f) (norm_inf_field f).
Proof.
  unfold norm_inf_field. rewrite <- (fold_left_map Rmax Rabs). destruct (fold_max (map Rabs f) 0) as [A [B C]].
  split; [exact B|]. split; [exact C|exact A].
Qed.
Theorem norm_multipatch fs : is_max (map Rabs (concat fs)) (norm_inf_multipatch fs).
Proof.
  unfold norm_inf_multipatch. destruct (fold_max (map norm_inf_field fs) 0) as [A [B C]].
  set (m := fold_left Rmax (map norm_inf_field fs) 0) in *. repeat split; auto.
  - intros x Hx. apply in_map_iff in Hx as [y [<- Hy]]. apply in_concat in Hy as [f [Hf Hy]].
    apply Rle_trans with (norm_inf_field f); [|apply B; apply in_map; auto].
    apply (norm_field_max f). apply in_map; auto.
  - destruct C as [C|C]; [auto|]. apply in_map_iff in C as [f [Ef Hf]].
    destruct (norm_field_max f) as [_ [[Z|I] _]]; [left; congruence|]. right. rewrite <- Ef.
    apply in_map_iff in I as [y [E Hy]]. rewrite <- E. apply in_map. apply in_concat. eauto.
Qed.
Theorem error_norm_multipatch fs gs : (forall fg, In fg (combine fs gs) -> length (fst fg) = length (snd fg)) ->
  error_norm_inf_multipatch fs gs =
  norm_inf_multipatch (map (fun fg => map (fun xy => fst xy - snd xy) (combine (fst fg) (snd fg))) (combine fs gs)).
Proof.
  intros _. unfold error_norm_inf_multipatch, norm_inf_multipatch. rewrite map_map. f_equal. apply map_ext. intros [f g].
  unfold error_norm_inf_field, norm_inf_field. cbn [fst snd]. rewrite fold_left_map. reflexivity.
Qed.

(** ** Finding: between two patches separated by less than the tolerance, the chosen patch does not
    contain the point *)
Definition hat (lo hi : R) : basis := Basis false lo (hi - lo) 0 1
  (fun _ x => if Rle_dec lo x then if Rle_dec x hi then Some (0%nat, fun _ => 1) else None else None) (fun _ => hi - lo).
Definition thetab : basis := Basis true 0 1 0 1
  (fun _ x => if Rle_dec 0 x then if Rle_dec x 1 then Some (0%nat, fun _ => 1) else None else None) (fun _ => 1).
Definition ring_patch (lo hi : R) : opatch := OPatch lo hi (hat lo hi) thetab.
Lemma hat_ok lo hi : lo < hi -> basis_ok (hat lo hi).
Proof.
  intros H. split; [cbn; lra|]. intros d x Hx. cbn in *. exists 0%nat, (fun _ => 1).
  destruct (Rle_dec lo x); [|lra]. destruct (Rle_dec x hi); [|lra]. split; [reflexivity|lia].
Qed.
Lemma thetab_ok : basis_ok thetab.
Proof.
  split; [cbn; lra|]. intros d x Hx. cbn in *. exists 0%nat, (fun _ => 1).
  destruct (Rle_dec 0 x); [|lra]. destruct (Rle_dec x 1); [|lra]. split; [reflexivity|lia].
Qed.
Lemma ring_patch_ok lo hi : lo + 1 <= hi -> patch_ok (ring_patch lo hi).
Proof.
  intros H. assert (/ 10 ^ 14 < 1) by (rewrite <- Rinv_1; apply Rinv_lt_contravar; lra).
  repeat split; try (apply hat_ok; lra) || apply thetab_ok; cbn; lra.
Qed.

Theorem gap_refuted : exists ps r radii,
  all_ok ps /\ set_and_check_radii ps = Ok radii /\ first_radius ps <= r <= last_radius ps /\
  exists k p, locate (S (length ps)) radii (length ps) r = Ok (Z.of_nat k) /\ nth_error ps k = Some p /\
    ~ (o_rmin p <= r <= o_rmax p) /\
    forall s, evaluate (fun c => c) (fun c => c) (S (length ps)) false false null_rule (map (fun p => (p, s)) ps) (r, 0) = AssertFail.
Proof.
  set (e := / 10 ^ 15). assert (He : 0 < e) by (apply Rinv_0_lt_compat; lra).
  assert (He2 : e < / 10 ^ 14) by (apply Rinv_lt_contravar; lra).
  assert (He1 : e < 1) by (unfold e; rewrite <- Rinv_1; apply Rinv_lt_contravar; lra).
  set (ps := [ring_patch 0 1; ring_patch (1 + e) 3]).
  assert (A : all_ok ps).
  { intros p [<-|[<-|[]]]; apply ring_patch_ok; lra. }
  assert (N : nearly_rings ps).
  { intros [|[|i]] p q Hp Hq; cbn in Hp, Hq; try discriminate.
    - injection Hp as <-. injection Hq as <-. cbn [o_rmin o_rmax ring_patch]. replace (1 + e - 1) with e by ring. rewrite Rabs_right; lra. }
  exists ps, 1, (first_radius ps :: map o_rmax ps).
  destruct (radii_ok ps ltac:(discriminate)) as [[_ E]|[C _]]; [|contradiction].
  destruct (locate_near ps 1 _ ltac:(discriminate) (all_ok_wide _ A) E) as [[L _]|[[L _]|[_ [k [p [P [L [L1 L2]]]]]]]].
  1:{ unfold last_radius in L. cbn in L. lra. }
  1:{ cbn in L. lra. }
  assert (k = 1%nat /\ p = ring_patch (1 + e) 3) as [-> ->].
  { destruct k as [|[|k]]; cbn in P.
    - injection P as <-. cbn [o_rmax ring_patch] in L2. destruct L2 as [|[_ L2]]; [lra|]. cbn in L2. discriminate.
    - injection P as <-. auto.
    - destruct k; discriminate. }
  split; [exact A|]. split; [exact E|]. split; [unfold last_radius; cbn; lra|].
  exists 1%nat, (ring_patch (1 + e) 3). split; [exact L|]. split; [reflexivity|]. split; [cbn [o_rmin o_rmax ring_patch]; lra|].
  intros s. unfold evaluate. rewrite map_length, map_map. cbn [fst]. rewrite map_id. rewrite E. cbn [bind]. unfold get_patch_idx. cbn [fst].
  rewrite L. cbn [bind orb]. rewrite Bool.andb_false_r. cbn [map ps dispatch].
  change (Z.of_nat 1 =? 0)%Z with false. cbn [Z.add]. change (Z.of_nat 1 =? 0 + 1)%Z with true. cbn match.
  change (Z.of_nat 1 =? 1)%Z with true. cbn match.
  unfold eval_no_bc, replace_periodic_coord_inside, restrict_coord. cbn [ring_patch o_b1 o_b2 hat b_per b_eval fst snd].
  destruct (Rle_dec (1 + e) 1); [lra|]. reflexivity.
Qed.
