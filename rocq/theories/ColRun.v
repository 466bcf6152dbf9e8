(** Life cycle of collision operators. *)
From Coq Require Import Lia Permutation.
From Verif Require Import ColSpec.
Open Scope nat_scope.

Lemma find_nat_in : forall (A : Type) (l : list (nat * A)) v a, NoDup (map fst l) -> In (v, a) l ->
  find_nat v l = Some a.
Proof.
  intros A l v a. induction l as [|[u b] l IH]; intros N H; [destruct H|].
  inversion N as [|? ? N1 N2]; subst. cbn. destruct H as [E|H].
  - injection E as -> ->. rewrite Nat.eqb_refl. reflexivity.
  - destruct (Nat.eqb_spec v u) as [->|NE].
    + exfalso. apply N1. apply in_map_iff. exists (u, a). split; [reflexivity|exact H].
    + apply IH; assumption.
Qed.
Lemma find_nat_none : forall (A : Type) (l : list (nat * A)) v, ~ In v (map fst l) -> find_nat v l = None.
Proof.
  intros A l v. induction l as [|[u b] l IH]; intros H; [reflexivity|]. cbn.
  destruct (Nat.eqb_spec v u) as [->|NE]; [exfalso; apply H; left; reflexivity|].
  apply IH. intros G. apply H. right. exact G.
Qed.
Lemma remove_absent : forall (A : Type) (l : list (nat * A)) v, ~ In v (map fst l) -> remove_nat v l = l.
Proof.
  intros A l v. induction l as [|[u b] l IH]; intros H; [reflexivity|]. cbn.
  destruct (Nat.eqb_spec v u) as [->|NE]; [exfalso; apply H; left; reflexivity|].
  f_equal. apply IH. intros G. apply H. right. exact G.
Qed.
Lemma remove_perm : forall (A : Type) (l : list (nat * A)) v a, NoDup (map fst l) -> In (v, a) l ->
  Permutation l ((v, a) :: remove_nat v l).
Proof.
  intros A l v a. induction l as [|[u b] l IH]; intros N H; [destruct H|].
  inversion N as [|? ? N1 N2]; subst. cbn. destruct H as [E|H].
  - injection E as -> ->. rewrite Nat.eqb_refl. rewrite remove_absent by exact N1. apply Permutation_refl.
  - destruct (Nat.eqb_spec v u) as [->|NE].
    + exfalso. apply N1. apply in_map_iff. exists (u, a). split; [reflexivity|exact H].
    + eapply perm_trans; [apply perm_skip; apply (IH N2 H)|]. apply perm_swap.
Qed.
Lemma in_remove : forall (A : Type) (l : list (nat * A)) u v a, In (u, a) l -> u <> v -> In (u, a) (remove_nat v l).
Proof.
  intros A l u v a. induction l as [|[x b] l IH]; intros H NE; [destruct H|]. cbn.
  destruct H as [E|H].
  - injection E as -> ->. destruct (Nat.eqb_spec v u); [congruence|]. left. reflexivity.
  - destruct (v =? x); [|right]; apply IH; assumption.
Qed.
Lemma remove_gone : forall (A : Type) (l : list (nat * A)) v, ~ In v (map fst (remove_nat v l)).
Proof.
  intros A l v. induction l as [|[x b] l IH]; intros H; [destruct H|]. cbn in H.
  destruct (Nat.eqb_spec v x) as [->|NE]; [contradiction|]. cbn in H. destruct H as [H|H]; [congruence|contradiction].
Qed.

Section Run.
Variable collide : koliop_args -> R -> list R -> list R.
Variable status : nat -> bool.

Lemma tidy_live : forall e s, tidy e s -> NoDup (map fst (st_live s)).
Proof.
  intros e s (P1 & _). pose proof (Permutation_NoDup (Permutation_sym P1) (seq_NoDup _ _)) as N.
  revert N. generalize (map fst (st_live s)) as l. intros l. generalize (st_released s) as r.
  induction r as [|x r IH]; intros N; [exact N|]. inversion N; subst. apply IH. assumption.
Qed.
Lemma tidy_handles : forall e s, tidy e s -> NoDup (map snd (st_objs s)).
Proof.
  intros e s T. pose proof (tidy_live e s T) as N. destruct T as (_ & P2 & _).
  exact (Permutation_NoDup (Permutation_sym P2) N).
Qed.

Theorem run_means : forall l e b e' b', means collide l e b e' b' -> forall s, tidy e s -> st_bufs s = b ->
  (exists s', run collide status l s = Some (Ok s') /\ tidy e' s' /\ st_bufs s' = b' /\
     forall n, st_calls s <= n < st_calls s + koliop_calls l -> status n = true) \/
  run collide status l s = Some AssertFail /\
    exists n, st_calls s <= n < st_calls s + koliop_calls l /\ status n = false.
Proof.
  intros l e b e' b' M. induction M as [e b|v q l e b e' b' Hv En M IH|v i dt q f l e b e' b' Hv Hi Hp M IH|v q l e b e' b' Hv M IH];
    intros s T Eb.
  - left. exists s. split; [reflexivity|split; [exact T|split; [exact Eb|]]]. cbn. lia.
  - pose proof T as (P1 & P2 & N & O1 & O2 & J). cbn [run step].
    rewrite (find_nat_none _ _ v (O2 v Hv)). unfold new_operator, koliop_Create, call. rewrite En.
    destruct (status (st_calls s)) eqn:ST; cbn [bind].
    2: { right. split; [reflexivity|]. exists (st_calls s). cbn [koliop_calls fold_right]. split; [lia|exact ST]. }
    cbn [st_objs st_live st_next st_released st_jobs st_bufs st_calls].
    set (s1 := State _ _ _ _ _ _ _).
    assert (T1 : tidy (bind_obj e v (Some q)) s1).
    { unfold tidy, s1. cbn [st_objs st_live st_next st_released st_jobs st_bufs st_calls map fst snd].
      split; [|split; [|split; [|split; [|split]]]].
      - rewrite seq_S. cbn [Nat.add]. eapply perm_trans; [apply Permutation_sym; apply Permutation_middle|].
        eapply perm_trans; [apply Permutation_cons_append|]. apply Permutation_app_tail. exact P1.
      - apply perm_skip. exact P2.
      - constructor; [apply O2; exact Hv|exact N].
      - intros u q'. unfold bind_obj. destruct (Nat.eqb_spec u v) as [->|NE].
        + intros E. injection E as <-. exists (st_next s). split; left; reflexivity.
        + intros E. destruct (O1 u q' E) as (h & H1 & H2). exists h. split; right; assumption.
      - intros u. unfold bind_obj. destruct (Nat.eqb_spec u v) as [->|NE]; [discriminate|].
        intros E [G|G]; [congruence|]. exact (O2 u E G).
      - exact J. }
    destruct (IH s1 T1 Eb) as [(s' & R1 & T' & B' & C')|(R1 & n & Hn & Sn)].
    + left. exists s'. split; [exact R1|split; [exact T'|split; [exact B'|]]].
      intros n Hn. cbn [koliop_calls fold_right] in Hn. fold (koliop_calls l) in Hn.
      destruct (Nat.eq_dec n (st_calls s)) as [->|NE]; [exact ST|]. apply C'. unfold s1. cbn [st_calls]. lia.
    + right. split; [exact R1|]. exists n. split; [|exact Sn]. cbn [koliop_calls fold_right]. fold (koliop_calls l).
      unfold s1 in Hn. cbn [st_calls] in Hn. lia.
  - pose proof T as (P1 & P2 & N & O1 & O2 & J). cbn [run step].
    destruct (O1 v q Hv) as (h & H1 & H2).
    rewrite (find_nat_in _ _ v h N H1).
    pose proof (find_nat_in _ _ h _ (tidy_live e s T) H2) as FL.
    unfold apply_operator, koliop_Collision. rewrite FL, Eb, Hi.
    rewrite (proj2 (Nat.leb_le _ _) Hp). unfold call.
    destruct (status (st_calls s)) eqn:ST; cbn [bind].
    2: { right. split; [reflexivity|]. exists (st_calls s). cbn [koliop_calls fold_right]. split; [lia|exact ST]. }
    unfold koliop_Fence. cbn [st_objs st_live st_next st_released st_jobs st_bufs st_calls]. rewrite FL.
    unfold call. cbn [st_objs st_live st_next st_released st_jobs st_bufs st_calls].
    destruct (status (S (st_calls s))) eqn:ST2; cbn [bind].
    2: { right. split; [reflexivity|]. exists (S (st_calls s)). cbn [koliop_calls fold_right]. split; [lia|exact ST2]. }
    cbn [st_objs st_live st_next st_released st_jobs st_bufs st_calls]. rewrite J. cbn [app filter j_handle].
    rewrite Nat.eqb_refl. cbn [negb fold_left]. unfold run_job. cbn [j_handle j_buf j_dt]. rewrite !FL, !Eb.
    rewrite !(nth_error_nth b i [] Hi).
    set (s1 := State _ _ _ _ _ _ _).
    assert (T1 : tidy e s1).
    { unfold tidy, s1. cbn [st_objs st_live st_next st_released st_jobs st_bufs st_calls].
      split; [exact P1|split; [exact P2|split; [exact N|split; [exact O1|split; [exact O2|reflexivity]]]]]. }
    destruct (IH s1 T1 eq_refl) as [(s' & R1 & T' & B' & C')|(R1 & n & Hn & Sn)].
    + left. exists s'. split; [exact R1|split; [exact T'|split; [exact B'|]]].
      intros n Hn. cbn [koliop_calls fold_right] in Hn. fold (koliop_calls l) in Hn.
      destruct (Nat.eq_dec n (st_calls s)) as [->|NE]; [exact ST|].
      destruct (Nat.eq_dec n (S (st_calls s))) as [->|NE2]; [exact ST2|].
      apply C'. unfold s1. cbn [st_calls]. lia.
    + right. split; [exact R1|]. exists n. split; [|exact Sn]. cbn [koliop_calls fold_right]. fold (koliop_calls l).
      unfold s1 in Hn. cbn [st_calls] in Hn. lia.
  - pose proof T as (P1 & P2 & N & O1 & O2 & J). cbn [run step].
    destruct (O1 v q Hv) as (h & H1 & H2).
    rewrite (find_nat_in _ _ v h N H1).
    pose proof (tidy_live e s T) as NL.
    pose proof (find_nat_in _ _ h _ NL H2) as FL.
    unfold destroy_operator, koliop_Release. rewrite FL. unfold call.
    destruct (status (st_calls s)) eqn:ST; cbn [bind].
    2: { right. split; [reflexivity|]. exists (st_calls s). cbn [koliop_calls fold_right]. split; [lia|exact ST]. }
    cbn [st_objs st_live st_next st_released st_jobs st_bufs st_calls].
    set (s1 := State _ _ _ _ _ _ _).
    assert (T1 : tidy (bind_obj e v None) s1).
    { pose proof (remove_perm _ _ _ _ NL H2) as PL. pose proof (remove_perm _ _ _ _ N H1) as PO.
      unfold tidy, s1. cbn [st_objs st_live st_next st_released st_jobs st_bufs st_calls].
      split; [|split; [|split; [|split; [|split]]]].
      - eapply perm_trans; [|exact P1]. cbn [app]. eapply perm_trans; [apply Permutation_middle|].
        apply Permutation_app_head. apply Permutation_sym. exact (Permutation_map fst PL).
      - apply (Permutation_cons_inv (a := h)).
        eapply perm_trans; [apply Permutation_sym; exact (Permutation_map snd PO)|].
        eapply perm_trans; [exact P2|]. exact (Permutation_map fst PL).
      - pose proof (Permutation_NoDup (Permutation_map fst PO) N) as NN. cbn in NN. inversion NN. assumption.
      - intros u q'. unfold bind_obj. destruct (Nat.eqb_spec u v) as [->|NE]; [discriminate|].
        intros E. destruct (O1 u q' E) as (k & K1 & K2). exists k. split; [apply in_remove; assumption|].
        apply in_remove; [exact K2|]. intros ->.
        pose proof (Permutation_NoDup (Permutation_map snd PO) (tidy_handles e s T)) as NN.
        cbn in NN. inversion NN as [|? ? NN1 _]; subst. apply NN1. apply in_map_iff. exists (u, h).
        split; [reflexivity|]. apply in_remove; assumption.
      - intros u. unfold bind_obj. destruct (Nat.eqb_spec u v) as [->|NE]; [intros _; apply remove_gone|].
        intros E G. apply (O2 u E). apply in_map_iff in G. destruct G as ([u' k] & E' & G). cbn in E'. subst u'.
        apply in_map_iff. exists (u, k). split; [reflexivity|].
        apply (Permutation_in _ (Permutation_sym PO)). right. exact G.
      - exact J. }
    destruct (IH s1 T1 Eb) as [(s' & R1 & T' & B' & C')|(R1 & n & Hn & Sn)].
    + left. exists s'. split; [exact R1|split; [exact T'|split; [exact B'|]]].
      intros n Hn. cbn [koliop_calls fold_right] in Hn. fold (koliop_calls l) in Hn.
      destruct (Nat.eq_dec n (st_calls s)) as [->|NE]; [exact ST|]. apply C'. unfold s1. cbn [st_calls]. lia.
    + right. split; [exact R1|]. exists n. split; [|exact Sn]. cbn [koliop_calls fold_right]. fold (koliop_calls l).
      unfold s1 in Hn. cbn [st_calls] in Hn. lia.
Qed.

Lemma start_tidy : forall b, tidy (fun _ => None) (start b).
Proof.
  intros b. unfold tidy, start. cbn. split; [constructor|split; [constructor|split; [constructor|split; [discriminate|split; [|reflexivity]]]]].
  intros v _ [].
Qed.
Theorem program_ok : forall l bufs e bufs', means collide l (fun _ => None) bufs e bufs' ->
  (exists s, run collide status l (start bufs) = Some (Ok s) /\ tidy e s /\ st_bufs s = bufs' /\
     forall n, n < koliop_calls l -> status n = true) \/
  run collide status l (start bufs) = Some AssertFail /\ exists n, n < koliop_calls l /\ status n = false.
Proof.
  intros l bufs e bufs' M. destruct (run_means l _ bufs e bufs' M (start bufs) (start_tidy bufs) eq_refl)
    as [(s & R1 & T & B & C)|(R1 & n & Hn & Sn)].
  - left. exists s. split; [exact R1|split; [exact T|split; [exact B|]]]. intros n Hn. apply C. cbn. lia.
  - right. split; [exact R1|]. exists n. cbn in Hn. split; [lia|exact Sn].
Qed.
(** once all the operators are destroyed, every handle was released, once *)
Theorem all_released : forall e s, tidy e s -> (forall v, e v = None) ->
  st_live s = [] /\ Permutation (st_released s) (seq 0 (st_next s)).
Proof.
  intros e s (P1 & P2 & _ & _ & O2 & _) H.
  assert (st_objs s = []) as E. { destruct (st_objs s) as [|[v h] l]; [reflexivity|]. exfalso. apply (O2 v (H v)). left. reflexivity. }
  rewrite E in P2. cbn in P2. apply Permutation_nil in P2.
  assert (L : st_live s = []) by (destruct (st_live s); [reflexivity|discriminate]).
  split; [exact L|]. rewrite L, app_nil_r in P1. exact P1.
Qed.

(** a copy of an operator and its original cannot both be destroyed *)
Theorem copy_ub : forall v v' q bufs, v <> v' -> enough (operator_args q) = true ->
  (forall n, status n = true) ->
  run collide status [New v q; CopyObj v v'; Destroy v; Destroy v'] (start bufs) = Some Ub /\
  run collide status [New v q; CopyObj v v'; Destroy v'; Destroy v] (start bufs) = Some Ub /\
  forall i dt, run collide status [New v q; CopyObj v v'; Destroy v; Apply v' i dt] (start bufs) = Some Ub.
Proof.
  intros v v' q bufs NE En ST.
  assert (E1 : (v' =? v) = false) by (apply Nat.eqb_neq; congruence).
  assert (E2 : (v =? v') = false) by (apply Nat.eqb_neq; congruence).
  assert (C : forall s, call status s = Ok (State (st_objs s) (st_live s) (st_next s) (st_released s) (st_jobs s) (st_bufs s) (S (st_calls s))))
    by (intros s; unfold call; rewrite ST; reflexivity).
  unfold start.
  split; [|split; [|intros i dt]];
  repeat (progress (lazy beta iota zeta delta [run step start st_objs st_live st_next st_released st_jobs st_bufs st_calls find_nat remove_nat
    new_operator koliop_Create copy_operator destroy_operator koliop_Release apply_operator koliop_Collision bind];
    rewrite ?E1, ?E2, ?Nat.eqb_refl, ?C, ?En)); reflexivity.
Qed.
(** nothing checks the size of the distribution function *)
Theorem small_ub : forall v q i dt bufs f, enough (operator_args q) = true -> (forall n, status n = true) ->
  nth_error bufs i = Some f -> length f < points (operator_args q) ->
  run collide status [New v q; Apply v i dt] (start bufs) = Some Ub.
Proof.
  intros v q i dt bufs f En ST Hi Hl.
  unfold start.
  repeat (progress (lazy beta iota zeta delta [run step start st_objs st_live st_next st_released st_jobs st_bufs st_calls find_nat remove_nat
    new_operator koliop_Create apply_operator koliop_Collision bind call];
    rewrite ?Nat.eqb_refl, ?ST, ?En, ?Hi, ?(proj2 (Nat.leb_gt _ _) Hl))); reflexivity.
Qed.
End Run.
