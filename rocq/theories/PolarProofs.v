From Verif Require Import PolarSpec RestrictProofs MappingProofs MappingComb AdvProofs.
From Coq Require Import Lra Lia.
Open Scope R_scope.

Lemma wrap_spec tmin len t : 0 < len ->
  tmin <= wrap tmin len t < tmin + len /\ congruent len (wrap tmin len t) t.
Proof.
  intros H. unfold wrap. set (k := Int_part ((t - tmin) / len)).
  destruct (base_Int_part ((t - tmin) / len)) as [A B]. fold k in A, B.
  assert (E : t - tmin = (t - tmin) / len * len) by (field; lra).
  split; [|exists (- k)%Z; rewrite opp_IZR; ring]. nra.
Qed.
Lemma restrict_wrap fuel tmin len t : 0 < len -> (10 <= fuel)%nat ->
  restrict_to_idx_range fuel tmin len t = Some (wrap tmin len t).
Proof.
  intros H F. destruct (restrict_spec fuel tmin len t H F) as (y & E & Ry & Cy). rewrite E. f_equal.
  destruct (wrap_spec tmin len t H) as [Rw Cw]. apply (congruent_unique len tmin); auto.
  apply (congruent_trans _ _ t); auto. destruct Cw as [k Hk]. exists (- k)%Z. rewrite opp_IZR. lra.
Qed.

Section Foot.
Context {C : Type} (ai : interpolator2 C) (su : polar_setup) (fuel : nat).
Hypothesis Hlen : 0 < ps_tlen su.
Hypothesis Hfuel : (10 <= fuel)%nat.
Hypothesis Hrad : forall p, 0 <= fst (ps_of_pc su p).

Lemma foot_step_ok y k h : foot_step su fuel y k h = Ok (logical su (ksub (ps_to_pc su y) (kscal h k))).
Proof.
  unfold foot_step, logical. cbn zeta. destruct (Rlt_dec _ _); auto.
  now rewrite restrict_wrap.
Qed.
Lemma logical_radius p : 0 <= fst (logical su p).
Proof. unfold logical. destruct (Rlt_dec _ _); cbn [fst]; [lra|apply Hrad]. Qed.
Lemma logical_angle p : let t := snd (logical su p) in
  logical su p = (0, 0) \/ ps_tmin su <= t < ps_tmin su + ps_tlen su.
Proof.
  unfold logical. destruct (Rlt_dec _ _); cbn [snd]; auto. right. apply wrap_spec; auto.
Qed.

Variables (c1 c2' : C) (B : R * R -> R * R).
Hypothesis HB : velocity_is ai su c1 c2' B.
Let dy := foot_velocity ai su c1 c2'.
Let up := foot_step su fuel.


Lemma backward_vec x : forall i, backward su B x i = - to_crd (B (logical su (of_crd x))) i.
Proof. intros i. unfold backward, to_crd. destruct i as [|[|i]]; cbn [c2]; auto. ring. Qed.

Lemma ext_pair (x x' : vec) : (forall i, (i < 2)%nat -> x i = x' i) -> of_crd x = of_crd x'.
Proof. intros H. unfold of_crd. rewrite !H by lia. reflexivity. Qed.

(** one stage in the plane *)
Lemma stage (x : vec) (K : vec) X k h : of_crd x = X -> (forall i, (i < 2)%nat -> K i = - to_crd k i) ->
  of_crd (default_update x K h) = ksub X (kscal h k).
Proof.
  intros <- HK. unfold of_crd, default_update, ksub, kscal. rewrite !HK by lia. cbn [to_crd c2 fst snd].
  f_equal; ring.
Qed.

Lemma runge_kutta m y dt : explicit m -> 0 <= fst y -> B y = B (logical su (ps_to_pc su y)) ->
  stepper_res dy up m y dt = Ok (logical su (of_crd (textbook m (backward su B) (to_crd (ps_to_pc su y)) dt))).
Proof.
  intros Hm Hy H0. set (F := backward su B). set (x0 := to_crd (ps_to_pc su y)).
  assert (X0 : of_crd x0 = ps_to_pc su y) by (unfold x0, of_crd, to_crd; cbn [c2]; destruct (ps_to_pc su y); auto).
  assert (K1 : forall i, (i < 2)%nat -> F x0 i = - to_crd (B y) i).
  { intros i _. unfold F. rewrite backward_vec, X0, H0. reflexivity. }
  assert (Hdy : forall q, dy (logical su q) = Ok (B (logical su q))) by (intros; apply HB, logical_radius).
  assert (Hup : forall k h, up y k h = Ok (logical su (ksub (ps_to_pc su y) (kscal h k)))) by (intros; apply foot_step_ok).
  assert (FS : forall x q, of_crd x = q -> forall i, (i < 2)%nat -> F x i = - to_crd (B (logical su q)) i).
  { intros x q <- i _. apply backward_vec. }
  destruct m; try destruct Hm; cbn [stepper_res textbook].
  - unfold euler_res, euler. unfold dy at 1. rewrite HB by auto. cbn [bind]. rewrite Hup. do 2 f_equal.
    symmetry. apply stage; auto.
  - unfold rk2_res, rk2. cbn zeta. unfold dy at 1. rewrite HB by auto. cbn [bind]. rewrite Hup. cbn [bind].
    rewrite Hdy. cbn [bind]. rewrite Hup. do 2 f_equal. symmetry. apply stage; auto.
    apply FS. apply stage; auto.
  - unfold rk3_res, rk3. cbn zeta. unfold dy at 1. rewrite HB by auto. cbn [bind]. rewrite Hup. cbn [bind].
    rewrite Hdy. cbn [bind]. rewrite Hup. cbn [bind]. rewrite Hdy. cbn [bind]. rewrite Hup. do 2 f_equal. symmetry.
    set (p2 := ksub (ps_to_pc su y) (kscal (1 / 2 * dt) (B y))).
    set (k2 := B (logical su p2)).
    assert (K2 : forall i, (i < 2)%nat -> F (default_update x0 (F x0) (1 / 2 * dt)) i = - to_crd k2 i).
    { apply FS. apply stage; auto. }
    apply stage; auto. intros i Hi. rewrite K2, K1 by auto.
    rewrite (FS _ (ksub (ps_to_pc su y) (kscal dt (ksub (kscal 2 k2) (B y))))); auto.
    + unfold to_crd. destruct i as [|[|]]; try lia; cbn [c2 kadd ksub kscal fst snd]; ring.
    + apply stage; auto. intros j Hj. rewrite K2, K1 by auto.
      unfold to_crd. destruct j as [|[|]]; try lia; cbn [c2 kadd ksub kscal fst snd]; ring.
  - unfold rk4_res, rk4. cbn zeta. unfold dy at 1. rewrite HB by auto. cbn [bind]. rewrite Hup. cbn [bind].
    rewrite Hdy. cbn [bind]. rewrite Hup. cbn [bind]. rewrite Hdy. cbn [bind]. rewrite Hup. cbn [bind].
    rewrite Hdy. cbn [bind]. rewrite Hup. do 2 f_equal. symmetry.
    set (p2 := ksub (ps_to_pc su y) (kscal (1 / 2 * dt) (B y))).
    set (k2 := B (logical su p2)).
    set (p3 := ksub (ps_to_pc su y) (kscal (1 / 2 * dt) k2)).
    set (k3 := B (logical su p3)).
    set (p4 := ksub (ps_to_pc su y) (kscal dt k3)).
    assert (K2 : forall i, (i < 2)%nat -> F (default_update x0 (F x0) (1 / 2 * dt)) i = - to_crd k2 i).
    { apply FS. apply stage; auto. }
    set (F2 := F (default_update x0 (F x0) (1 / 2 * dt))) in *.
    assert (K3 : forall i, (i < 2)%nat -> F (default_update x0 F2 (1 / 2 * dt)) i = - to_crd k3 i).
    { apply FS. apply stage; auto. }
    set (F3 := F (default_update x0 F2 (1 / 2 * dt))) in *.
    assert (K4 : forall i, (i < 2)%nat -> F (default_update x0 F3 dt) i = - to_crd (B (logical su p4)) i).
    { apply FS. apply stage; auto. }
    apply stage; auto. intros i Hi. rewrite K1, K2, K3, K4 by auto.
    unfold to_crd. destruct i as [|[|]]; try lia; cbn [c2 kadd ksub kscal fst snd]; ring.
Qed.

(** the iterates of the fixed-point loop, in logical coordinates *)
Definition cn_foot (y : R * R) (dt : R) (c : nat) : R * R :=
  match c with O => y | S _ => logical su (of_crd (cn_iterate (backward su B) (to_crd (ps_to_pc su y)) dt c)) end.
Lemma cn_foot_step y dt c : 0 <= fst y -> B y = B (logical su (ps_to_pc su y)) ->
  dy (cn_foot y dt c) = Ok (B (cn_foot y dt c)) /\
  up y (kadd (B y) (B (cn_foot y dt c))) (1 / 2 * dt) = Ok (cn_foot y dt (S c)).
Proof.
  intros Hy H0. set (F := backward su B). set (x0 := to_crd (ps_to_pc su y)).
  assert (X0 : of_crd x0 = ps_to_pc su y) by (unfold x0, of_crd, to_crd; cbn [c2]; destruct (ps_to_pc su y); auto).
  assert (Hc : 0 <= fst (cn_foot y dt c)) by (destruct c; [auto|apply logical_radius]).
  assert (Hb : B (cn_foot y dt c) = B (logical su (of_crd (cn_iterate F x0 dt c)))).
  { destruct c; [cbn [cn_iterate cn_foot]; now rewrite X0|reflexivity]. }
  split; [now apply HB|]. unfold up. rewrite foot_step_ok.
  change (cn_foot y dt (S c)) with (logical su (of_crd (fun j => x0 j + dt / 2 * (F x0 j + F (cn_iterate F x0 dt c) j)))).
  do 2 f_equal.
  rewrite Hb. unfold of_crd at 2. unfold F at 1 3. rewrite !backward_vec, X0, <- H0. fold F.
  set (b := B (logical su (of_crd (cn_iterate F x0 dt c)))).
  rewrite <- X0. unfold ksub, kscal, kadd, of_crd, to_crd. cbn [c2 fst snd]. f_equal; field.
Qed.
Lemma crank_nicolson_foot y dt mc eps : 0 <= fst y -> B y = B (logical su (ps_to_pc su y)) ->
  exists c, stepper_res dy up (CrankNicolson mc eps) y dt = Ok (cn_foot y dt c) /\
    (1 <= Z.of_nat c <= Z.max 1 mc)%Z /\
    ((Z.of_nat c < mc)%Z -> quot_ge (norm_inf_coord (ksub (cn_foot y dt (c - 1)) (cn_foot y dt c)))
                              (norm_inf_coord (cn_foot y dt (c - 1))) eps = false).
Proof.
  intros Hy H0. cbn [stepper_res]. unfold dy at 1. rewrite HB by auto. cbn [bind].
  assert (L : forall n c, exists k, cn_loop_res dy up n y (B y) dt eps (cn_foot y dt c) = Ok (cn_foot y dt (c + S k)) /\
    (k <= n)%nat /\ ((k < n)%nat -> quot_ge (norm_inf_coord (ksub (cn_foot y dt (c + k)) (cn_foot y dt (c + S k))))
                              (norm_inf_coord (cn_foot y dt (c + k))) eps = false)).
  { induction n as [|n IH]; intros c; cbn [cn_loop_res]; destruct (cn_foot_step y dt c Hy H0) as [-> E];
      cbn [bind]; rewrite E; cbn [bind].
    - exists 0%nat. rewrite Nat.add_1_r. split; auto. split; lia.
    - destruct (quot_ge _ _ _) eqn:Q.
      + destruct (IH (S c)) as (k & Hk & Hl & Hq). exists (S k). rewrite Hk.
        replace (S c + S k)%nat with (c + S (S k))%nat in * by lia.
        replace (S c + k)%nat with (c + S k)%nat in * by lia.
        split; auto. split; [lia|]. intros; apply Hq; lia.
      + exists 0%nat. rewrite Nat.add_1_r, Nat.add_0_r. split; auto. split; [lia|auto]. }
  destruct (L (Z.to_nat (mc - 1)) 0%nat) as (k & Hk & Hl & Hq). exists (S k).
  change (cn_foot y dt 0) with y in Hk. split; [exact Hk|]. split; [lia|].
  intros Hm. replace (S k - 1)%nat with k by lia. apply Hq. lia.
Qed.

(** every method ends on a logical point *)
Lemma stepper_logical m y dt : 0 <= fst y ->
  exists k h, stepper_res dy up m y dt = Ok (logical su (ksub (ps_to_pc su y) (kscal h k))).
Proof.
  intros Hy.
  assert (Hdy : forall q, dy (logical su q) = Ok (B (logical su q))) by (intros; apply HB, logical_radius).
  assert (Hup : forall k h, up y k h = Ok (logical su (ksub (ps_to_pc su y) (kscal h k)))) by (intros; apply foot_step_ok).
  assert (H1 : dy y = Ok (B y)) by (apply HB; auto).
  destruct m; cbn [stepper_res].
  - unfold euler_res. rewrite H1. cbn [bind]. rewrite Hup. eauto.
  - unfold rk2_res. cbn zeta. rewrite H1. cbn [bind]. rewrite Hup. cbn [bind]. rewrite Hdy. cbn [bind]. rewrite Hup. eauto.
  - unfold rk3_res. cbn zeta. rewrite H1. cbn [bind]. rewrite Hup. cbn [bind]. rewrite Hdy. cbn [bind]. rewrite Hup.
    cbn [bind]. rewrite Hdy. cbn [bind]. rewrite Hup. eauto.
  - unfold rk4_res. cbn zeta. rewrite H1. cbn [bind]. rewrite Hup. cbn [bind]. rewrite Hdy. cbn [bind]. rewrite Hup.
    cbn [bind]. rewrite Hdy. cbn [bind]. rewrite Hup. cbn [bind]. rewrite Hdy. cbn [bind]. rewrite Hup. eauto.
  - rewrite H1. cbn [bind].
    assert (L : forall n z, dy z = Ok (B z) -> exists k h, cn_loop_res dy up n y (B y) dt eps z =
      Ok (logical su (ksub (ps_to_pc su y) (kscal h k)))).
    { induction n as [|n IH]; intros z Hz; cbn [cn_loop_res]; rewrite Hz; cbn [bind]; rewrite Hup; cbn [bind]; eauto.
      destruct (quot_ge _ _ _); eauto. }
    apply L; auto.
Qed.

(** a velocity which is the same at all the points the method can visit *)
Lemma stepper_constant m y dt k : 0 <= fst y -> B y = k ->
  (forall s q, B (logical su (ksub (ps_to_pc su y) (kscal s k))) = q -> q = k) ->
  stepper_res dy up m y dt = Ok (logical su (ksub (ps_to_pc su y) (kscal dt k))).
Proof.
  intros Hy Hk HK.
  assert (Hdy : forall s, dy (logical su (ksub (ps_to_pc su y) (kscal s k))) = Ok k).
  { intros s. unfold dy. rewrite HB by (apply logical_radius). f_equal. eapply HK; reflexivity. }
  assert (Hup : forall h k, up y k h = Ok (logical su (ksub (ps_to_pc su y) (kscal h k)))) by (intros; apply foot_step_ok).
  assert (H1 : dy y = Ok k) by (unfold dy; rewrite HB by auto; now rewrite Hk).
  destruct m; cbn [stepper_res].
  - unfold euler_res. rewrite H1. cbn [bind]. now rewrite Hup.
  - unfold rk2_res. cbn zeta. rewrite H1. cbn [bind]. rewrite Hup. cbn [bind]. rewrite Hdy. cbn [bind]. now rewrite Hup.
  - unfold rk3_res. cbn zeta. rewrite H1. cbn [bind]. rewrite Hup. cbn [bind]. rewrite Hdy. cbn [bind].
    replace (ksub (kscal 2 k) k) with k by (destruct k; unfold ksub, kscal; cbn [fst snd]; f_equal; ring).
    rewrite Hup. cbn [bind]. rewrite Hdy. cbn [bind]. rewrite Hup. do 2 f_equal.
    destruct k; unfold ksub, kscal, kadd; cbn [fst snd]; f_equal; field.
  - unfold rk4_res. cbn zeta. rewrite H1. cbn [bind]. rewrite Hup. cbn [bind]. rewrite Hdy. cbn [bind].
    rewrite Hup. cbn [bind]. rewrite Hdy. cbn [bind]. rewrite Hup. cbn [bind]. rewrite Hdy. cbn [bind].
    rewrite Hup. do 2 f_equal. destruct k; unfold ksub, kscal, kadd; cbn [fst snd]; f_equal; field.
  - rewrite H1. cbn [bind].
    assert (E : forall h, up y (kadd k k) (1 / 2 * h) = Ok (logical su (ksub (ps_to_pc su y) (kscal h k)))).
    { intros h. rewrite Hup. do 2 f_equal. destruct k; unfold ksub, kscal, kadd; cbn [fst snd]; f_equal; field. }
    assert (L : forall n z, dy z = Ok k -> cn_loop_res dy up n y k dt eps z =
      Ok (logical su (ksub (ps_to_pc su y) (kscal dt k)))).
    { induction n as [|n IH]; intros z Hz; cbn [cn_loop_res]; rewrite Hz; cbn [bind]; rewrite E; cbn [bind]; auto.
      destruct (quot_ge _ _ _); auto. }
    apply L; auto.
Qed.

(** a zero step *)
Lemma stepper_zero m y : 0 <= fst y -> stepper_res dy up m y 0 = Ok (logical su (ps_to_pc su y)).
Proof.
  intros Hy.
  assert (Hz : forall k, ksub (ps_to_pc su y) (kscal 0 k) = ps_to_pc su y).
  { intros k. destruct (ps_to_pc su y); unfold ksub, kscal; cbn [fst snd]; f_equal; ring. }
  assert (Hdy : forall q, dy (logical su q) = Ok (B (logical su q))) by (intros; apply HB, logical_radius).
  assert (Hup : forall k h, h = 0 -> up y k h = Ok (logical su (ps_to_pc su y))).
  { intros k h ->. unfold up. rewrite foot_step_ok. now rewrite Hz. }
  assert (H1 : dy y = Ok (B y)) by (apply HB; auto).
  destruct m; cbn [stepper_res].
  - unfold euler_res. rewrite H1. cbn [bind]. now rewrite Hup.
  - unfold rk2_res. cbn zeta. rewrite H1. cbn [bind]. rewrite Hup by ring. cbn [bind]. rewrite Hdy. cbn [bind]. now rewrite Hup.
  - unfold rk3_res. cbn zeta. rewrite H1. cbn [bind]. rewrite Hup by ring. cbn [bind]. rewrite Hdy. cbn [bind]. rewrite Hup by ring.
    cbn [bind]. rewrite Hdy. cbn [bind]. now rewrite Hup by (field).
  - unfold rk4_res. cbn zeta. rewrite H1. cbn [bind]. rewrite Hup by ring. cbn [bind]. rewrite Hdy. cbn [bind]. rewrite Hup by ring.
    cbn [bind]. rewrite Hdy. cbn [bind]. rewrite Hup by ring. cbn [bind]. rewrite Hdy. cbn [bind]. now rewrite Hup by field.
  - rewrite H1. cbn [bind].
    assert (L : forall n z, dy z = Ok (B z) -> cn_loop_res dy up n y (B y) 0 eps z = Ok (logical su (ps_to_pc su y))).
    { induction n as [|n IH]; intros z H; cbn [cn_loop_res]; rewrite H; cbn [bind]; rewrite Hup by ring; cbn [bind]; auto.
      destruct (quot_ge _ _ _); auto. }
    apply L; auto.
Qed.
End Foot.

(** ** Charts *)
Lemma norm_self p : norm_inf_coord (ksub p p) = 0.
Proof.
  unfold norm_inf_coord, ksub. cbn [fst snd]. rewrite !Rminus_eq_0, !Rabs_R0.
  rewrite (Rmax_left 0 0) by lra. apply Rmax_left. lra.
Qed.
Section Chart.
Variables (su : polar_setup) (dom lgc : R * R -> Prop).
Hypothesis Ch : polar_chart su dom lgc.

Lemma chart_len : 0 < ps_tlen su.
Proof. rewrite (ch_len _ _ _ Ch). pose proof PI_RGT_0. lra. Qed.
Lemma logical_apart p : dom p -> tiny <= norm_inf_coord (ksub p (ps_to_pc su (0, 0))) ->
  ps_to_pc su (logical su p) = p.
Proof.
  intros Hd Hn. unfold logical. destruct (Rlt_dec _ _); [lra|].
  rewrite (ch_turn _ _ _ Ch _ _ (snd (ps_of_pc su p))).
  - rewrite <- surjective_pairing. apply (ch_right _ _ _ Ch); auto.
  - rewrite <- (ch_len _ _ _ Ch). apply wrap_spec, chart_len.
Qed.
Lemma logical_close p : dom p -> norm_inf_coord (ksub p (ps_to_pc su (logical su p))) < tiny.
Proof.
  intros Hd. destruct (Rlt_dec (norm_inf_coord (ksub p (ps_to_pc su (0, 0)))) tiny) as [H|H].
  - unfold logical. destruct (Rlt_dec _ _); [auto|lra].
  - rewrite logical_apart by (auto; lra). rewrite norm_self. apply tiny_pos.
Qed.
Lemma logical_self q : lgc q -> ps_tmin su <= snd q < ps_tmin su + 2 * PI ->
  tiny <= norm_inf_coord (ksub (ps_to_pc su q) (ps_to_pc su (0, 0))) -> logical su (ps_to_pc su q) = q.
Proof.
  intros Hl Ht Hn. unfold logical. destruct (Rlt_dec _ _); [lra|].
  destruct (ch_left _ _ _ Ch q Hl) as [-> Hc]. rewrite (surjective_pairing q) at 3. f_equal.
  rewrite (ch_len _ _ _ Ch). pose proof PI_RGT_0.
  destruct (wrap_spec (ps_tmin su) (2 * PI) (snd (ps_of_pc su (ps_to_pc su q)))) as [R1 C1]; [lra|].
  apply (congruent_unique (2 * PI) (ps_tmin su)); auto; try lra. eapply congruent_trans; eauto.
Qed.
Lemma logical_centre t : logical su (ps_to_pc su (0, t)) = (0, 0).
Proof.
  unfold logical. rewrite (ch_centre _ _ _ Ch). destruct (Rlt_dec _ _) as [|H]; auto. exfalso. apply H.
  rewrite norm_self. apply tiny_pos.
Qed.
End Chart.
