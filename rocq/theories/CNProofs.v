From Verif Require Import Lib TimeModel TimeSpec TimeProofs.
From Coq Require Import FunctionalExtensionality.
Open Scope R_scope.

Lemma norm_inf_spec n v : is_max_abs n v (norm_inf n v).
Proof.
  unfold norm_inf, is_max_abs. induction n as [|n [IH1 [IH2 IH3]]]; cbn [for_loop].
  - split; [intros i Hi; lia|]. split; [lra|]. intros; lia.
  - set (m := for_loop n _ 0) in *. split; [|split].
    + intros i Hi. destruct (Nat.eq_dec i n) as [->|]; [apply Rmax_r|].
      eapply Rle_trans; [apply IH1; lia|apply Rmax_l].
    + eapply Rle_trans; [exact IH2|apply Rmax_l].
    + intros _. unfold Rmax. destruct (Rle_dec m (Rabs (v n))) as [L|L].
      * exists n. split; [lia|reflexivity].
      * destruct n as [|n]; [exists 0%nat; split; [lia|]|].
        -- cbn in m. subst m. pose proof (Rabs_pos (v 0%nat)). lra.
        -- destruct (IH3 ltac:(lia)) as [i [Hi E]]. exists i. split; [lia|exact E].
Qed.

Section CN.
Variables (J : Type) (f : (J -> R) -> (J -> R)) (err : (J -> R) -> (J -> R) -> R) (nrm : (J -> R) -> R).

Lemma cn_body_iter y dt m :
  cn_body _ J f default_update y (f y) dt (cn_iterate f y dt m) = (cn_iterate f y dt m, cn_iterate f y dt (S m)).
Proof.
  unfold cn_body. f_equal. apply functional_extensionality; intros j. cbn [cn_iterate]. unfold default_update. field.
Qed.

Lemma cn_loop_spec left y dt eps m c a b :
  cn_loop _ J f default_update err nrm left y (f y) dt eps (cn_iterate f y dt m) = (c, a, b) ->
  (1 <= c <= S left)%nat /\ b = cn_iterate f y dt (m + c) /\ a = cn_iterate f y dt (m + c - 1) /\
  ((c <= left)%nat -> quot_ge (err a b) (nrm a) eps = false) /\
  (forall l, (m <= l)%nat -> (S l < m + c)%nat ->
     quot_ge (err (cn_iterate f y dt l) (cn_iterate f y dt (S l))) (nrm (cn_iterate f y dt l)) eps = true).
Proof.
  assert (IT : forall p q, p = q -> cn_iterate f y dt p = cn_iterate f y dt q) by (intros; subst; reflexivity).
  revert m c a b. induction left as [|left IH]; intros m c a b E; cbn [cn_loop] in E; rewrite cn_body_iter in E.
  - injection E as <- <- <-. split; [lia|]. split; [apply (IT (S m) (m + 1)%nat); lia|]. split; [apply IT; lia|].
    split; intros; lia.
  - destruct (quot_ge _ _ _) eqn:Q.
    + destruct (cn_loop _ _ _ _ _ _ left _ _ _ _ (cn_iterate f y dt (S m))) as [[c' a'] b'] eqn:E'.
      injection E as <- <- <-. apply IH in E'. destruct E' as [H1 [H2 [H3 [H4 H5]]]].
      split; [lia|]. split; [rewrite H2; apply IT; lia|]. split; [rewrite H3; apply IT; lia|].
      split; [intros; apply H4; lia|]. intros l Hl Hl'.
      destruct (Nat.eq_dec l m) as [->|]; [exact Q|]. apply H5; lia.
    + injection E as <- <- <-. split; [lia|]. split; [apply (IT (S m) (m + 1)%nat); lia|]. split; [apply IT; lia|].
      split; [intros _; exact Q|]. intros; lia.
Qed.

Lemma crank_nicolson_spec maxc eps y dt c a b :
  crank_nicolson _ J f default_update err nrm maxc eps y dt = (c, a, b) ->
  (1 <= Z.of_nat c <= Z.max 1 maxc)%Z /\ b = cn_iterate f y dt c /\ a = cn_iterate f y dt (c - 1) /\
  ((Z.of_nat c < maxc)%Z -> quot_ge (err a b) (nrm a) eps = false) /\
  (forall l, (S l < c)%nat ->
     quot_ge (err (cn_iterate f y dt l) (cn_iterate f y dt (S l))) (nrm (cn_iterate f y dt l)) eps = true).
Proof.
  unfold crank_nicolson. intros E. change y with (cn_iterate f y dt 0) in E at 3.
  apply cn_loop_spec in E. destruct E as [H1 [H2 [H3 [H4 H5]]]]. cbn [Nat.add] in *.
  split; [lia|]. split; [exact H2|]. split; [exact H3|]. split.
  - intros Hc. apply H4. lia.
  - intros l Hl. apply H5; lia.
Qed.

Lemma cn_fixed_point maxc eps y dt c a b :
  crank_nicolson _ J f default_update err nrm maxc eps y dt = (c, a, b) ->
  (forall j, a j = b j) -> forall j, b j = y j + dt / 2 * (f y j + f b j).
Proof.
  intros E Hab. apply crank_nicolson_spec in E. destruct E as [H1 [H2 [H3 _]]].
  assert (Ea : a = b) by (apply functional_extensionality; exact Hab).
  intros j. destruct c as [|c]; [lia|]. replace (S c - 1)%nat with c in H3 by lia.
  transitivity (cn_iterate f y dt (S c) j); [rewrite H2; reflexivity|].
  cbn [cn_iterate]. rewrite <- H3, Ea. reflexivity.
Qed.
End CN.

Lemma quot_ge_false a b eps : quot_ge a b eps = false ->
  (b = 0 /\ a <= 0) \/ (b <> 0 /\ a / b < eps).
Proof.
  unfold quot_ge. destruct (Req_EM_T b 0) as [E|E].
  - destruct (Rlt_dec 0 a); [discriminate|]. intros _. left. split; [exact E|lra].
  - destruct (Rle_dec eps (a / b)); [discriminate|]. intros _. right. split; [exact E|lra].
Qed.

(** stopping before the limit: the equation is satisfied up to the tolerance *)
Lemma cn_early_exit n f L maxc eps y dt c a b : 0 <= L -> 0 <= eps -> lipschitz n f L ->
  crank_nicolson _ nat f default_update (error_norm_inf n) (norm_inf n) maxc eps y dt = (c, a, b) ->
  (Z.of_nat c < maxc)%Z ->
  vle n (fun i => a i - b i) (eps * norm_inf n a) /\
  vle n (fun i => b i - (y i + dt / 2 * (f y i + f b i))) (Rabs dt / 2 * L * eps * norm_inf n a).
Proof.
  intros HL Heps Hf E Hc. apply crank_nicolson_spec in E. destruct E as [H1 [H2 [H3 [H4 _]]]].
  specialize (H4 Hc). apply quot_ge_false in H4.
  destruct (norm_inf_spec n (fun i => a i - b i)) as [V [V0 _]].
  destruct (norm_inf_spec n a) as [_ [N0 _]].
  assert (V1 : vle n (fun i => a i - b i) (eps * norm_inf n a)).
  { eapply vle_weak; [exact V|]. change (norm_inf n (fun i => a i - b i)) with (error_norm_inf n a b) in *.
    destruct H4 as [[E Ha]|[E Ha]].
    - rewrite E, Rmult_0_r. exact Ha.
    - assert (P : 0 < norm_inf n a) by lra. apply Rmult_lt_compat_r with (r := norm_inf n a) in Ha; [|exact P].
      unfold Rdiv in Ha. rewrite Rmult_assoc, Rinv_l, Rmult_1_r in Ha by exact E. lra. }
  split; [exact V1|]. intros i Hi.
  destruct c as [|c]; [lia|]. replace (S c - 1)%nat with c in H3 by lia.
  assert (Eb : b i = y i + dt / 2 * (f y i + f a i)) by (rewrite H2, H3; reflexivity).
  rewrite Eb at 1. replace (y i + dt / 2 * (f y i + f a i) - (y i + dt / 2 * (f y i + f b i)))
    with (dt / 2 * (f a i - f b i)) by field.
  rewrite Rabs_mult. replace (Rabs (dt / 2)) with (Rabs dt / 2).
  - rewrite (Rmult_assoc (Rabs dt / 2)), (Rmult_assoc (Rabs dt / 2)). apply Rmult_le_compat_l.
    + pose proof (Rabs_pos dt). lra.
    + rewrite Rmult_assoc. apply (Hf a b _ V1 i Hi).
  - unfold Rdiv. rewrite Rabs_mult, (Rabs_pos_eq (/ 2)) by lra. reflexivity.
Qed.

(** contraction towards the implicit solution *)
Lemma cn_contraction n f L y dt ys m0 : 0 <= L -> lipschitz n f L -> cn_solution n f y dt ys ->
  vle n (fun i => y i - ys i) m0 ->
  forall m, vle n (fun i => cn_iterate f y dt m i - ys i) ((Rabs dt * L / 2) ^ m * m0).
Proof.
  intros HL Hf Hs H0. induction m as [|m IH].
  - cbn [pow cn_iterate]. rewrite Rmult_1_l. exact H0.
  - intros i Hi. cbn [cn_iterate]. rewrite (Hs i Hi).
    replace (y i + dt / 2 * (f y i + f (cn_iterate f y dt m) i) - (y i + dt / 2 * (f y i + f ys i)))
      with (dt / 2 * (f (cn_iterate f y dt m) i - f ys i)) by field.
    rewrite Rabs_mult. replace (Rabs (dt / 2)) with (Rabs dt / 2).
    + specialize (Hf _ _ _ IH i Hi).
      apply Rle_trans with (Rabs dt / 2 * (L * ((Rabs dt * L / 2) ^ m * m0))).
      * apply Rmult_le_compat_l; [pose proof (Rabs_pos dt); lra|exact Hf].
      * cbn [pow]. right. field.
    + unfold Rdiv. rewrite Rabs_mult, (Rabs_pos_eq (/ 2)) by lra. reflexivity.
Qed.

(** the implicit solution is unique when dt L / 2 < 1 *)
Lemma cn_unique n f L y dt y1 y2 : 0 <= L -> lipschitz n f L -> Rabs dt * L / 2 < 1 ->
  cn_solution n f y dt y1 -> cn_solution n f y dt y2 -> veq n y1 y2.
Proof.
  intros HL Hf Hq S1 S2.
  destruct (norm_inf_spec n (fun i => y1 i - y2 i)) as [V [V0 V1]].
  set (m := norm_inf n (fun i => y1 i - y2 i)) in *.
  destruct (Nat.eq_dec n 0) as [->|Hn]; [intros i Hi; lia|].
  destruct (V1 ltac:(lia)) as [i [Hi E]].
  assert (K : m <= Rabs dt * L / 2 * m).
  { rewrite E at 1. rewrite (S1 i Hi), (S2 i Hi).
    replace (y i + dt / 2 * (f y i + f y1 i) - (y i + dt / 2 * (f y i + f y2 i))) with (dt / 2 * (f y1 i - f y2 i)) by field.
    rewrite Rabs_mult. replace (Rabs (dt / 2)) with (Rabs dt / 2) by (unfold Rdiv; rewrite Rabs_mult, (Rabs_pos_eq (/ 2)) by lra; reflexivity).
    specialize (Hf _ _ _ V i Hi). apply Rle_trans with (Rabs dt / 2 * (L * m)); [|right; field].
    apply Rmult_le_compat_l; [pose proof (Rabs_pos dt); lra|exact Hf]. }
  assert (m = 0) as Em.
  { destruct (Rle_lt_or_eq_dec 0 m V0) as [P|P]; [|lra].
    apply Rmult_lt_compat_r with (r := m) in Hq; lra. }
  intros j Hj. specialize (V j Hj). rewrite Em in V. pose proof (Rabs_pos (y1 j - y2 j)).
  destruct (Req_dec (y1 j - y2 j) 0) as [Z|Z]; [lra|]. apply Rabs_no_R0 in Z. lra.
Qed.
