(** The implicit solver: the fixed point loop for the feet and the runs. *)
From Verif Require Import Lib DerivModel PcrModel PcrSpec PcrProofs.
Open Scope R_scope.

(** ** The stopping test *)
Lemma fold_max_le l : forall a c, fold_left Rmax l a <= c <-> (a <= c /\ forall x, In x l -> x <= c).
Proof.
  induction l as [|y l IH]; intros a c; cbn [fold_left].
  - split; [intros H; split; [exact H|intros x []]|tauto].
  - rewrite IH. split.
    + intros [H1 H2]. pose proof (Rmax_l a y). pose proof (Rmax_r a y). split; [lra|]. intros x [<-|Hx]; [lra|auto].
    + intros [H1 H2]. split; [apply Rmax_lub; [exact H1|apply H2; left; reflexivity]|intros x Hx; apply H2; right; exact Hx].
Qed.
Lemma sqrt_le_iff x d : 0 <= x -> 0 <= d -> (sqrt x <= d <-> x <= d * d).
Proof.
  intros Hx Hd. split; intros H.
  - rewrite <- (sqrt_sqrt x Hx). apply Rmult_le_compat; auto using sqrt_pos.
  - rewrite <- (sqrt_square d Hd). apply sqrt_le_1_alt. exact H.
Qed.
Lemma stop_test o X Y tau : 0 <= tau ->
  (reduce_max (map (fun p => square_distance o (fst p) (snd p)) (combine X Y)) <= tau * tau <-> close_feet o X Y tau).
Proof.
  intros Ht. unfold reduce_max. rewrite fold_max_le.
  assert (Q : forall p q, square_distance o p q <= tau * tau <-> sqrt ((fst (o_phys o p) - fst (o_phys o q)) ^ 2 + (snd (o_phys o p) - snd (o_phys o q)) ^ 2) <= tau).
  { intros p q. unfold square_distance. destruct (o_phys o p) as [a b], (o_phys o q) as [c d]. cbn [fst snd]. rewrite sqrt_le_iff; auto.
    - replace ((a - c) ^ 2 + (b - d) ^ 2) with ((a - c) * (a - c) + (b - d) * (b - d)) by ring. reflexivity.
    - pose proof (pow2_ge_0 (a - c)). pose proof (pow2_ge_0 (b - d)). lra. }
  split.
  - intros [_ H] p q Hp. apply Q. apply H. apply in_map_iff. exists (p, q). split; [reflexivity|exact Hp].
  - intros H. split; [apply Rmult_le_pos; exact Ht|]. intros x Hx. apply in_map_iff in Hx. destruct Hx as ([p q] & <- & Hp). apply Q. apply H. exact Hp.
Qed.

(** ** The loop *)
Lemma picard_inv o shared dt m m1 sq : let al := alias_im shared in built o al m -> im_picard o shared dt m = Ok (m1, sq) ->
  m_s m1 = m_s m /\ m_events m1 = m_events m /\ gv al ADV m1 = gv al ADV m /\ built o al m1 /\
  picard o (gv al ADV m) dt (gv al FEET m) (gv al FEET m1) /\
  sq = reduce_max (map (fun p => square_distance o (fst p) (snd p)) (combine (gv al FEET m1) (gv al FEET m))).
Proof.
  intros al [B1 B2] H. unfold im_picard in H. destruct m as [ms mv me]. unfold al in *. clear al.
  destruct shared.
  - destruct (eval_field _ _ _ _) as [m2| | |] eqn:E in H; cbn [bind] in H; try discriminate. inv E.
    destruct (find_feet _ _ _ _ _) as [m2| | |] eqn:E in H; cbn [bind] in H; try discriminate. inv E.
    assert (HM := f_equal (fun r => match r with Ok (a, b) => a | _ => m1 end) H). assert (HS := f_equal (fun r => match r with Ok (a, b) => b | _ => sq end) H). cbv beta iota in HM, HS.
    rewrite <- HM, <- HS. clear HM HS H. mem_in B1. mem_in B2. mem.
    split; [reflexivity|]. split; [reflexivity|]. split; [reflexivity|]. split; [split; assumption|]. split; [|reflexivity].
    eexists. split; [do 4 eexists; repeat split; eassumption|]. assumption.
  - destruct (eval_field _ _ _ _) as [m2| | |] eqn:E in H; cbn [bind] in H; try discriminate. inv E.
    destruct (find_feet _ _ _ _ _) as [m2| | |] eqn:E in H; cbn [bind] in H; try discriminate. inv E.
    assert (HM := f_equal (fun r => match r with Ok (a, b) => a | _ => m1 end) H). assert (HS := f_equal (fun r => match r with Ok (a, b) => b | _ => sq end) H). cbv beta iota in HM, HS.
    rewrite <- HM, <- HS. clear HM HS H. mem_in B1. mem_in B2. mem.
    split; [reflexivity|]. split; [reflexivity|]. split; [reflexivity|]. split; [split; assumption|]. split; [|reflexivity].
    eexists. split; [do 4 eexists; repeat split; eassumption|]. assumption.
Qed.
Lemma picard_total o shared dt m X' : let al := alias_im shared in built o al m -> picard o (gv al ADV m) dt (gv al FEET m) X' ->
  exists m1 sq, im_picard o shared dt m = Ok (m1, sq).
Proof.
  intros al [B1 B2] (B & (cx & cy & bx & by_ & H1 & H2 & H3 & H4 & ->) & H5). unfold im_picard. destruct m as [ms mv me]. unfold al in *. clear al.
  assert (Q1 := eq_trans (eq_sym B1) H1). assert (Q2 := eq_trans (eq_sym B2) H2).
  assert (cx = gs (alias_im shared) COEFS_X {| m_s := ms; m_v := mv; m_events := me |}) by congruence.
  assert (cy = gs (alias_im shared) COEFS_Y {| m_s := ms; m_v := mv; m_events := me |}) by congruence. subst cx cy. clear Q1 Q2 H1 H2.
  change (plus (gv (alias_im shared) ADV {| m_s := ms; m_v := mv; m_events := me |}) (combine bx by_)) with (vadd (gv (alias_im shared) ADV {| m_s := ms; m_v := mv; m_events := me |}) (combine bx by_)) in H5.
  destruct shared; mem_in H3; mem_in H4; mem_in H5; exec; eauto.
Qed.
(** the iterates, from any start; [N]: the largest number of iterations *)
Definition iterates (o : operators) (A : list (R * R)) (h tau : R) (N : nat) (X0 : list (R * R)) (k : nat) (Xs : nat -> list (R * R)) : Prop :=
  Xs 0%nat = X0 /\ (1 <= k <= N)%nat /\ (forall i, (i < k)%nat -> picard o A h (Xs i) (Xs (S i))) /\
  (forall i, (S i < k)%nat -> ~ close_feet o (Xs (S i)) (Xs i) tau) /\
  (close_feet o (Xs k) (Xs (k - 1)%nat) tau \/ k = N).
Lemma do_sound o shared dt tau l : 0 <= tau -> forall m m1, let al := alias_im shared in built o al m -> im_do o shared l dt tau m = Ok m1 ->
  m_s m1 = m_s m /\ m_events m1 = m_events m /\ gv al ADV m1 = gv al ADV m /\
  exists k Xs, iterates o (gv al ADV m) dt tau (S l) (gv al FEET m) k Xs /\ gv al FEET m1 = Xs k.
Proof.
  intros Ht. induction l as [|l IH]; intros m m1 al HB; cbn [im_do];
    (destruct (im_picard o shared dt m) as [[m2 sq]| | |] eqn:E; cbn [bind]; try discriminate);
    destruct (picard_inv o shared dt m m2 sq HB E) as (P1 & P2 & P3 & P4 & P5 & P6); fold al in P1, P2, P3, P4, P5, P6.
  - intros H. assert (m2 = m1) by congruence. subst m2. split; [exact P1|]. split; [exact P2|]. split; [exact P3|].
    exists 1%nat, (fun i => match i with O => gv al FEET m | _ => gv al FEET m1 end). split; [|reflexivity].
    split; [reflexivity|]. split; [lia|]. split; [intros i Hi; replace i with 0%nat by lia; exact P5|]. split; [lia|right; reflexivity].
  - destruct (Rlt_dec (tau * tau) sq) as [L|L].
    + intros H. destruct (IH m2 m1 P4 H) as (Q1 & Q2 & Q3 & k & Xs & (I0 & I1 & I2 & I3 & I4) & Q4). fold al in Q3, I0, I2, Q4.
      split; [congruence|]. split; [congruence|]. split; [congruence|].
      exists (S k), (fun i => match i with O => gv al FEET m | S j => Xs j end). split; [|exact Q4].
      split; [reflexivity|]. split; [lia|]. rewrite P3 in I2. split; [|split].
      * intros [|i] Hi; [rewrite I0; exact P5|apply I2; lia].
      * intros [|i] Hi; [|apply I3; lia]. rewrite I0. intros C. apply (stop_test o _ _ tau Ht) in C. rewrite <- P6 in C. lra.
      * destruct I4 as [I4|I4]; [left|right; lia]. replace (S k - 1)%nat with k by lia. destruct k as [|k]; [lia|]. replace (S k - 1)%nat with k in I4 by lia. exact I4.
    + intros H. assert (m2 = m1) by congruence. subst m2. split; [exact P1|]. split; [exact P2|]. split; [exact P3|].
      exists 1%nat, (fun i => match i with O => gv al FEET m | _ => gv al FEET m1 end). split; [|reflexivity].
      split; [reflexivity|]. split; [lia|]. split; [intros i Hi; replace i with 0%nat by lia; exact P5|]. split; [lia|]. left. cbn. apply (stop_test o _ _ tau Ht). rewrite <- P6. lra.
Qed.
Lemma picard_fun o A h X a b : picard o A h X a -> picard o A h X b -> a = b.
Proof. intros (B & H1 & H2) (B' & H1' & H2'). assert (B' = B) by (eapply field_at_fun; eassumption). subst. congruence. Qed.
Lemma iterates_fun o A h tau N X0 k k' Xs Xs' : iterates o A h tau N X0 k Xs -> iterates o A h tau N X0 k' Xs' -> k = k' /\ forall i, (i <= k)%nat -> Xs i = Xs' i.
Proof.
  intros (A0 & A1 & A2 & A3 & A4) (B0 & B1 & B2 & B3 & B4).
  assert (E : forall i, (i <= k)%nat -> (i <= k')%nat -> Xs i = Xs' i).
  { induction i as [|i IH]; intros Hi Hi'; [congruence|]. apply (picard_fun o A h (Xs i)); [apply A2; lia|]. rewrite IH by lia. apply B2. lia. }
  assert (K : k = k').
  { destruct (Nat.lt_trichotomy k k') as [L|[L|L]]; [|exact L|]; exfalso.
    - destruct A4 as [A4|A4]; [|lia]. specialize (B3 (k - 1)%nat). replace (S (k - 1)) with k in B3 by lia. rewrite <- !E in B3 by lia. apply B3; [lia|exact A4].
    - destruct B4 as [B4|B4]; [|lia]. specialize (A3 (k' - 1)%nat). replace (S (k' - 1)) with k' in A3 by lia. rewrite !E in A3 by lia. apply A3; [lia|exact B4]. }
  split; [exact K|]. intros i Hi. apply E; lia.
Qed.
Lemma do_total o shared dt tau l : 0 <= tau -> forall m k Xs, let al := alias_im shared in built o al m ->
  iterates o (gv al ADV m) dt tau (S l) (gv al FEET m) k Xs -> exists m1, im_do o shared l dt tau m = Ok m1.
Proof.
  intros Ht. induction l as [|l IH]; intros m k Xs al HB (I0 & I1 & I2 & I3 & I4); cbn [im_do].
  - destruct (picard_total o shared dt m (Xs 1%nat) HB) as (m1 & sq & ->). { fold al. rewrite <- I0. apply I2. lia. } cbn [bind]. eauto.
  - destruct (picard_total o shared dt m (Xs 1%nat) HB) as (m1 & sq & E). { fold al. rewrite <- I0. apply I2. lia. } rewrite E. cbn [bind].
    destruct (picard_inv o shared dt m m1 sq HB E) as (P1 & P2 & P3 & P4 & P5 & P6). fold al in P3, P4, P5, P6.
    assert (X1 : gv al FEET m1 = Xs 1%nat). { apply (picard_fun o (gv al ADV m) dt (gv al FEET m)); [exact P5|]. rewrite <- I0. apply I2. lia. }
    destruct (Rlt_dec (tau * tau) sq) as [L|L]; [|eauto].
    assert (K : (1 < k)%nat).
    { destruct (Nat.eq_dec k 1) as [->|]; [|lia]. exfalso. destruct I4 as [I4|I4]; [|lia]. cbn in I4. rewrite I0, <- X1 in I4. apply (stop_test o _ _ tau Ht) in I4. rewrite <- P6 in I4. lra. }
    apply (IH m1 (k - 1)%nat (fun i => Xs (S i)) P4). fold al. rewrite P3, X1. split; [reflexivity|]. split; [lia|]. split; [intros i Hi; apply I2; lia|].
    split; [intros i Hi; apply I3; lia|]. destruct I4 as [I4|I4]; [left|right; lia]. replace (S (k - 1)) with k by lia. replace (S (k - 1 - 1)) with (k - 1)%nat by lia. exact I4.
Qed.
Lemma loop_inv o shared dt tau m m1 : let al := alias_im shared in 0 <= tau -> built o al m -> gv al FEET m = o_grid o -> implicit_loop o shared dt tau m = Ok m1 ->
  m_s m1 = m_s m /\ m_events m1 = m_events m /\ gv al ADV m1 = gv al ADV m /\ feet_solution o (gv al ADV m) dt tau (gv al FEET m1).
Proof.
  intros al Ht HB HF H. destruct (do_sound o shared dt tau _ Ht m m1 HB H) as (Q1 & Q2 & Q3 & k & Xs & (I0 & I1 & I2 & I3 & I4) & Q4). fold al in Q3, I0, I2, Q4.
  split; [exact Q1|]. split; [exact Q2|]. split; [exact Q3|]. exists k, Xs. rewrite HF in I0. split; [|exact Q4]. split; [exact I0|]. split; [exact I1|]. split; [exact I2|]. split; [exact I3|exact I4].
Qed.
Lemma loop_total o shared dt tau m X : let al := alias_im shared in 0 <= tau -> built o al m -> gv al FEET m = o_grid o -> feet_solution o (gv al ADV m) dt tau X ->
  exists m1, implicit_loop o shared dt tau m = Ok m1.
Proof.
  intros al Ht HB HF (k & Xs & (I0 & I1 & I2 & I3 & I4) & _). apply (do_total o shared dt tau _ Ht m k Xs HB). fold al. rewrite HF.
  split; [exact I0|]. split; [exact I1|]. split; [exact I2|]. split; [exact I3|exact I4].
Qed.
Lemma feet_fun o A h tau a b : feet_solution o A h tau a -> feet_solution o A h tau b -> a = b.
Proof.
  intros (k & Xs & (I0 & I1 & I2 & I3 & I4) & ->) (k' & Xs' & (J0 & J1 & J2 & J3 & J4) & ->).
  destruct (iterates_fun o A h tau 50 (o_grid o) k k' Xs Xs') as [E1 E2]; [exact (conj I0 (conj I1 (conj I2 (conj I3 I4))))|exact (conj J0 (conj J1 (conj J2 (conj J3 J4))))|]. subst k'. apply E2. lia.
Qed.
Lemma implicit_fun w tau o dt a b c : implicit_step w tau o dt a b -> implicit_step w tau o dt a c -> b = c.
Proof.
  intros (A & X & AX & rP & AP & Y & AY & H1 & H2 & H3 & H4 & _ & H5 & H6 & H7 & H8) (A' & X' & AX' & rP' & AP' & Y' & AY' & H1' & H2' & H3' & H4' & _ & H5' & H6' & H7' & H8').
  assert (A' = A) by (eapply field_fun; eassumption). subst A'. assert (X' = X) by (eapply feet_fun; eassumption). subst X'.
  assert (AX' = AX) by (eapply field_at_fun; eassumption). subst AX'. assert (rP' = rP) by congruence. subst rP'.
  assert (AP' = AP) by (eapply field_fun; eassumption). subst AP'. assert (Y' = Y) by (eapply feet_fun; eassumption). subst Y'.
  assert (AY' = AY) by (eapply field_at_fun; eassumption). subst AY'. congruence.
Qed.
Lemma tau_pos : 0 <= im_tau. Proof. unfold im_tau. left. apply Rinv_0_lt_compat. apply pow_lt. lra. Qed.

(** ** The runs *)
Ltac fin H m' := match type of H with Ok ?t = Ok m' => let HM := fresh "HM" in assert (HM : m' = t) by congruence; clear H; rewrite HM; clear HM end.
Ltac after_loop H m1 := let L := fresh "L" in
  match type of H with bind (implicit_loop ?o ?s ?h ?t ?m) _ = Ok _ =>
    destruct (implicit_loop o s h t m) as [m1| | |] eqn:L; cbn [bind] in H; [|discriminate H|discriminate H|discriminate H];
    apply loop_inv in L; [|exact tau_pos|mem; split; assumption|reflexivity] end.
Ltac runs H := repeat match type of H with
  | bind (bind _ _) _ = Ok _ => rewrite bind_assoc in H; cbn [bind] in H
  | bind (implicit_loop _ _ _ _ _) _ = Ok _ => fail 1
  | bind ?x _ = Ok _ => let E := fresh "E" in destruct x eqn:E; cbn [bind] in H; [inv E|discriminate H|discriminate H|discriminate H]
  end; try inv H.
Lemma im_body_sound o shared dt : sound_body (alias_im shared) (im_body o shared dt) (implicit_code o dt)
  (fun iter rho _ e => is_event e false iter (IZR iter * dt) rho (polar_potential_of o rho)) (fun a b => if shared then b else a).
Proof.
  intros iter [ms mv me] m' H. unfold im_body in H. destruct shared.
  - runs H. after_loop H m1. destruct m1 as [ms1 mv1 me1]. destruct L as (L1 & L2 & L3 & L4). mem_in L1. mem_in L2. mem_in L3. mem_in L4. subst ms1 me1.
    rename c2 into A. runs H. rewrite ?L3 in *. after_loop H m2. destruct m2 as [ms2 mv2 me2]. destruct L as (M1 & M2 & M3 & M4). mem_in M1. mem_in M2. mem_in M3. mem_in M4. subst ms2 me2.
    runs H. rewrite ?M3 in *. repeat rewrite mean_ok in *. mem. split; [|split; [reflexivity|]].
    + do 7 eexists. split; [eexists; split; [eexists; split; eassumption|eassumption]|]. split; [eassumption|]. split; [do 4 eexists; repeat split; eassumption|].
      split; [eassumption|]. split; [eexists; eassumption|]. split; [eexists; split; [eexists; split; eassumption|eassumption]|].
      split; [eassumption|]. split; [do 4 eexists; repeat split; eassumption|eassumption].
    + eexists. split; [|reflexivity]. repeat split. cbn. eexists. split; [eexists; split; eassumption|eassumption].
  - runs H. after_loop H m1. destruct m1 as [ms1 mv1 me1]. destruct L as (L1 & L2 & L3 & L4). mem_in L1. mem_in L2. mem_in L3. mem_in L4. subst ms1 me1.
    rename c2 into A. runs H. rewrite ?L3 in *. after_loop H m2. destruct m2 as [ms2 mv2 me2]. destruct L as (M1 & M2 & M3 & M4). mem_in M1. mem_in M2. mem_in M3. mem_in M4. subst ms2 me2.
    runs H. rewrite ?M3 in *. repeat rewrite mean_ok in *. mem. split; [|split; [reflexivity|]].
    + do 7 eexists. split; [eexists; split; [eexists; split; eassumption|eassumption]|]. split; [eassumption|]. split; [do 4 eexists; repeat split; eassumption|].
      split; [eassumption|]. split; [eexists; eassumption|]. split; [eexists; split; [eexists; split; eassumption|eassumption]|].
      split; [eassumption|]. split; [do 4 eexists; repeat split; eassumption|eassumption].
    + eexists. split; [|reflexivity]. repeat split. cbn. eexists. split; [eexists; split; eassumption|eassumption].
Qed.
Ltac pass_loop X ms1 mv1 me1 L1 L2 L3 LX HS :=
  match goal with |- context [implicit_loop ?o ?s ?h ?t ?M] =>
    let m1 := fresh "m" in let E := fresh "E" in let L4 := fresh "L" in
    assert (exists m1, implicit_loop o s h t M = Ok m1) as [m1 E];
    [apply (loop_total o s h t M X); [exact tau_pos|mem; split; assumption|reflexivity|exact HS]|];
    rewrite E; cbn [bind]; apply loop_inv in E; [|exact tau_pos|mem; split; assumption|reflexivity];
    destruct m1 as [ms1 mv1 me1]; destruct E as (L1 & L2 & L3 & L4); mem_in L1; mem_in L2; mem_in L3; mem_in L4; subst ms1 me1;
    assert (LX : mv1 FEET = X) by (eapply feet_fun; eassumption)
  end.
Lemma im_body_total o shared dt iter m rho' : implicit_code o dt (gs (alias_im shared) DENSITY m) rho' ->
  (exists phi, polar_potential_of o (gs (alias_im shared) DENSITY m) phi) -> exists m', im_body o shared dt iter m = Ok m'.
Proof.
  destruct m as [ms mv me].
  intros (A & X & AX & rP & AP & Y & AY & (c & (c1 & H1 & H2) & H3) & HX & (cx & cy & bx & by_ & H4 & H5 & H6 & H7 & ->) & H8 & (Z & H9) &
    (c' & (c1' & H1' & H2') & H3') & HY & (dx & dy & ex & ey & G4 & G5 & G6 & G7 & ->) & H10) (phi & d & (d1 & F1 & F2) & F3).
  assert (d1 = c1) by congruence. subst d1. assert (d = c) by congruence. subst d. rewrite <- mean_ok in H9, H10. unfold im_body.
  destruct shared; mem_in H1; mem_in H2; mem_in H8; mem_in H10; exec.
  - pass_loop X ms1 mv1 me1 L1 L2 L3 LX HX. mem. rewrite ?L3, ?LX. exec. rewrite ?L3. exec. pass_loop Y ms2 mv2 me2 M1 M2 M3 MX HY. mem. rewrite ?M3, ?MX. exec. rewrite ?M3. exec. eauto.
  - pass_loop X ms1 mv1 me1 L1 L2 L3 LX HX. mem. rewrite ?L3, ?LX. exec. rewrite ?L3. exec. pass_loop Y ms2 mv2 me2 M1 M2 M3 MX HY. mem. rewrite ?M3, ?MX. exec. rewrite ?M3. exec. eauto.
Qed.
Lemma implicit_sound o shared dt steps m rho m' : given m rho -> implicit_predcorr o shared dt steps m = Ok m' ->
  exists ds, trajectory (implicit_code o dt) (count steps) rho ds /\ m_s m' DENSITY_HOST = ds (count steps) /\
    length (m_events m') = S (count steps) /\
    (forall k, (k < count steps)%nat -> exists e, nth_error (m_events m') k = Some e /\
       is_event e false (Z.of_nat k) (INR k * dt) (ds k) (polar_potential_of o (ds k))) /\
    exists e, nth_error (m_events m') (count steps) = Some e /\
       is_event e true steps (IZR steps * dt) (if shared then ds (count steps) else ds (count steps - 1)%nat) (grid_potential o (ds (count steps))).
Proof.
  intros [G1 G2] H. unfold implicit_predcorr in H.
  destruct (loop (im_body o shared dt) steps (copy_s (alias_im shared) DENSITY DENSITY_HOST m)) as [m1| | |] eqn:E; cbn [bind] in H; try discriminate.
  unfold loop in E. apply (loop_sound (alias_im shared) _ _ _ _ _ _ _ _ (im_body_sound o shared dt)) in E.
  destruct E as (ds & evs & T & HD & HE & HL & HV & HH).
  assert (D0 : gs (alias_im shared) DENSITY (copy_s (alias_im shared) DENSITY DENSITY_HOST m) = rho) by (rewrite <- G1; destruct shared; reflexivity).
  assert (H0 : gs (alias_im shared) DENSITY_HOST (copy_s (alias_im shared) DENSITY DENSITY_HOST m) = rho) by (rewrite <- G1; destruct shared; reflexivity).
  assert (E0 : m_events (copy_s (alias_im shared) DENSITY DENSITY_HOST m) = []) by (rewrite <- G2; reflexivity).
  rewrite D0 in T. rewrite E0 in HE. rewrite H0 in HH. cbn [app] in HE. exists ds. split; [exact T|].
  assert (HH' : gs (alias_im shared) DENSITY_HOST m1 = if shared then ds (count steps) else ds (count steps - 1)%nat).
  { rewrite HH. unfold count. destruct (Z.to_nat steps) as [|k]; [rewrite <- (proj1 T); destruct shared; reflexivity|]. replace (S k - 1)%nat with k by lia. reflexivity. }
  clear HH. assert (HD' : gs (alias_im shared) DENSITY m1 = ds (count steps)) by exact HD. clear HD. destruct m1 as [ms mv me]. cbn [m_events] in HE. subst me.
  assert (X : forall n (e : event), length evs = n -> nth_error (evs ++ [e]) n = Some e) by (intros n e <-; rewrite (nth_error_app2 evs [e] (le_n (length evs))), Nat.sub_diag; reflexivity).
  assert (Y : forall k (e : event), (k < count steps)%nat -> nth_error (evs ++ [e]) k = nth_error evs k) by (intros k e Hk; apply nth_error_app1; rewrite HL; exact Hk).
  destruct shared; run H; mem_in HD'; mem_in HH'; fin H m'; mem.
  - split; [exact HD'|]. split; [rewrite app_length, HL; cbn [length]; rewrite Nat.add_1_r; reflexivity|]. split.
    + intros k Hk. rewrite Y by exact Hk. destruct (HV k Hk) as (e & N & V). exists e. split; [exact N|]. rewrite INR_IZR_INZ. exact V.
    + eexists. split; [apply X; exact HL|]. split; [reflexivity|]. split; [reflexivity|]. split; [reflexivity|]. split; [exact HH'|]. cbn. rewrite <- HD'. eexists. split; eassumption.
  - split; [exact HD'|]. split; [rewrite app_length, HL; cbn [length]; rewrite Nat.add_1_r; reflexivity|]. split.
    + intros k Hk. rewrite Y by exact Hk. destruct (HV k Hk) as (e & N & V). exists e. split; [exact N|]. rewrite INR_IZR_INZ. exact V.
    + eexists. split; [apply X; exact HL|]. split; [reflexivity|]. split; [reflexivity|]. split; [reflexivity|]. split; [exact HH'|]. cbn. rewrite <- HD'. eexists. split; eassumption.
Qed.
Lemma implicit_complete o shared dt steps m rho ds : given m rho -> trajectory (implicit_code o dt) (count steps) rho ds ->
  (forall k, (k < count steps)%nat -> exists phi, polar_potential_of o (ds k) phi) -> (exists phi, grid_potential o (ds (count steps)) phi) ->
  exists m', implicit_predcorr o shared dt steps m = Ok m'.
Proof.
  intros [G1 G2] T HP [phi (c & HG1 & HG2)]. unfold implicit_predcorr.
  assert (D0 : gs (alias_im shared) DENSITY (copy_s (alias_im shared) DENSITY DENSITY_HOST m) = rho) by (rewrite <- G1; destruct shared; reflexivity).
  rewrite <- D0 in T.
  destruct (loop_complete _ _ _ _ _ (fun r _ => exists phi, polar_potential_of o r phi) (count steps) 0 _ ds (im_body_sound o shared dt)
    (implicit_fun _ _ o dt) (fun iter m rho' S O => im_body_total o shared dt iter m rho' S O) T HP) as (m1 & E & HD).
  unfold loop. change (Z.to_nat steps) with (count steps). rewrite E. cbn [bind]. rewrite <- HD in HG1. clear E HD T. destruct m1 as [ms mv me].
  destruct shared; mem_in HG1; exec; eauto.
Qed.
