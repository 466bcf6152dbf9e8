(** The right-hand side, the solve and the evaluation. *)
From Coq Require Import Permutation ZifyBool FunctionalExtensionality.
From Verif Require Import Lib DerivModel DerivRanges QuadModel MatrixModel MatrixSpec MatrixProofs MatrixSolveModel MatrixLinkModel MatrixLinkProofs
  FemModel FemSpec FemAsm FemForm.
Open Scope R_scope.

Lemma wrap_index_mod n : (0 < n)%Z -> forall fuel j, (0 <= j)%Z -> (j <= Z.of_nat fuel)%Z -> wrap_index fuel n j = (j mod n)%Z.
Proof.
  intros Hn. induction fuel as [|f IH]; intros j Hj Hf; cbn [wrap_index].
  - replace j with 0%Z by lia. rewrite Z.mod_0_l by lia. reflexivity.
  - destruct (n - 1 <? j)%Z eqn:E.
    + rewrite IH by lia. replace j with (j - n + 1 * n)%Z at 2 by lia. rewrite Z.mod_add by lia. reflexivity.
    + rewrite Z.mod_small by lia. reflexivity.
Qed.

Fixpoint lsum {T} (f : T -> R) (l : list T) : R := match l with [] => 0 | t :: l' => f t + lsum f l' end.
Lemma lsum_perm {T} (f : T -> R) l l' : Permutation l l' -> lsum f l = lsum f l'.
Proof. induction 1; cbn [lsum]; lra. Qed.
Lemma lsum_app {T} (f : T -> R) l l' : lsum f (l ++ l') = lsum f l + lsum f l'.
Proof. induction l as [|t l IH]; cbn [lsum app]; [lra|]. rewrite IH. lra. Qed.
Lemma lsum_map {T U} (g : T -> U) (f : U -> R) l : lsum f (map g l) = lsum (fun t => f (g t)) l.
Proof. induction l as [|t l IH]; cbn [lsum map]; [reflexivity|]. rewrite IH. reflexivity. Qed.
Lemma lsum_seq (f : nat -> R) n : lsum f (seq 0 n) = Rsum n f.
Proof.
  induction n as [|n IH]; [reflexivity|]. rewrite seq_S, lsum_app, IH. cbn [lsum plus Rsum]. lra.
Qed.
Lemma lsum_prod {T U} (f : T * U -> R) (l : list T) (l' : list U) : lsum f (list_prod l l') = lsum (fun t => lsum (fun u => f (t, u)) l') l.
Proof.
  induction l as [|t l IH]; cbn [list_prod lsum]; [reflexivity|]. rewrite lsum_app, lsum_map, IH. reflexivity.
Qed.
Lemma lsum_ext {T} (f g : T -> R) l : (forall t, In t l -> f t = g t) -> lsum f l = lsum g l.
Proof.
  induction l as [|t l IH]; intros H; cbn [lsum]; [reflexivity|]. rewrite H by (left; reflexivity).
  rewrite IH; [reflexivity|]. intros; apply H; right; assumption.
Qed.

Lemma quad_nth q f : quad q f = Rsum (length q) (fun i => snd (nth i q (0, 0)) * f (fst (nth i q (0, 0)))).
Proof.
  induction q as [|[x w] q IH]; [reflexivity|]. cbn [quad length]. rewrite Rsum_first. cbn [nth fst snd]. rewrite IH. reflexivity.
Qed.

(** contribution of one task to the entry (ib0, i0) *)
Definition contrib (b : basis) (q : list (R * R)) (rho : nat -> R -> R) (ib0 i0 : nat) (t : nat * nat * nat) : R :=
  let '(ib, iq, j) := t in
  let '(x, w) := nth iq q (0, 0) in
  if ((ib =? ib0) && ((fst (ev b x) + j) mod nbas b =? i0))%nat%bool then rho ib x * snd (ev b x) j * w else 0.

Definition entry (rows : list (list R)) (ib i : nat) : R := nth i (nth ib rows []) 0.
Definition shaped (nbatch n : nat) (rows : list (list R)) : Prop :=
  length rows = nbatch /\ forall ib, (ib < nbatch)%nat -> length (nth ib rows []) = n.

Lemma rd_nth {A} (l : list A) i d : (i < length l)%nat -> rd l (Z.of_nat i) = Ok (nth i l d).
Proof.
  intros H. unfold rd. replace (Z.of_nat i <? 0)%Z with false by lia. rewrite Nat2Z.id.
  rewrite (nth_error_nth' l d H). reflexivity.
Qed.
Lemma wr_nth {A} (l : list A) i x d : (i < length l)%nat -> exists l', wr l (Z.of_nat i) x = Ok l' /\ length l' = length l /\
  forall k, nth k l' d = if (k =? i)%nat then x else nth k l d.
Proof.
  intros H. exists (replace_nth l i x). split; [rewrite wr_ok by lia; rewrite Nat2Z.id; reflexivity|].
  split; [apply replace_nth_length|]. intros k. destruct (k =? i)%nat eqn:E.
  - assert (k = i) as -> by lia. apply nth_error_nth. apply nth_error_replace_eq. exact H.
  - pose proof (nth_error_replace_neq l i k x ltac:(lia)) as Hn.
    destruct (Nat.lt_ge_cases k (length l)) as [Hk|Hk].
    + apply nth_error_nth. rewrite Hn. apply nth_error_nth'. exact Hk.
    + rewrite !nth_overflow by (rewrite ?replace_nth_length; exact Hk). reflexivity.
Qed.

Lemma atomic_add_ok nbatch n rows ib i v : shaped nbatch n rows -> (ib < nbatch)%nat -> (i < n)%nat ->
  exists rows', atomic_add rows (Z.of_nat ib) (Z.of_nat i) v = Ok rows' /\ shaped nbatch n rows' /\
    forall ib' i', entry rows' ib' i' = entry rows ib' i' + (if ((ib =? ib') && (i =? i'))%nat%bool then v else 0).
Proof.
  intros [Hl Hr] Hib Hi. unfold atomic_add. rewrite (rd_nth rows ib []) by lia. cbn [bind].
  rewrite (rd_nth _ i 0) by (rewrite Hr; assumption). cbn [bind].
  destruct (wr_nth (nth ib rows []) i (nth i (nth ib rows []) 0 + v) 0) as [row [E [L N]]]; [rewrite Hr; assumption|].
  rewrite E. cbn [bind]. destruct (wr_nth rows ib row []) as [rows' [E' [L' N']]]; [lia|].
  exists rows'. split; [exact E'|]. split.
  - split; [lia|]. intros k Hk. rewrite N'. destruct (k =? ib)%nat; [rewrite L; apply Hr; exact Hib|apply Hr; exact Hk].
  - intros ib' i'. unfold entry. rewrite N'. destruct (ib' =? ib)%nat eqn:Ei.
    + assert (ib' = ib) as -> by lia. rewrite Nat.eqb_refl. cbn [andb]. rewrite N.
      destruct (i' =? i)%nat eqn:Ej; [assert (i' = i) as -> by lia; rewrite Nat.eqb_refl; reflexivity|].
      replace (i =? i')%nat with false by lia. lra.
    + replace (ib =? ib')%nat with false by lia. cbn [andb]. lra.
Qed.

Lemma nb_le_full b : (nbas b <= nfull b)%nat.
Proof. unfold nfull. destruct (per b); lia. Qed.

Lemma run_tasks_ok b q rho nbatch sched : bspline_basis b ->
  (forall t, In t sched -> In t (all_tasks b q nbatch)) ->
  forall rows, shaped nbatch (nfull b) rows ->
  exists rows', run_tasks (rhs_task b q rho) sched rows = Ok rows' /\ shaped nbatch (nfull b) rows' /\
    forall ib i, entry rows' ib i = entry rows ib i + lsum (contrib b q rho ib i) sched.
Proof.
  intros Hb. induction sched as [|[[ib iq] j] s IH]; intros Hin rows Hs; cbn [run_tasks lsum].
  - exists rows. split; [reflexivity|]. split; [exact Hs|]. intros; lra.
  - assert (H := Hin (ib, iq, j) (or_introl eq_refl)). unfold all_tasks in H.
    apply in_prod_iff in H. destruct H as [H Hj]. apply in_prod_iff in H. destruct H as [Hib Hiq].
    apply in_seq in Hib, Hiq, Hj.
    cbn [rhs_task]. rewrite (nth_error_nth' q (0, 0)) by lia.
    destruct (nth iq q (0, 0)) as [x w] eqn:Eq. destruct (ev b x) as [jmin vals] eqn:Ee.
    pose proof Hb as [Hd [Hjm _]].
    rewrite wrap_index_mod by lia. rewrite <- Nat2Z.inj_mod.
    assert (Hm : ((jmin + j) mod nbas b < nbas b)%nat) by (apply Nat.mod_upper_bound; lia).
    destruct (atomic_add_ok nbatch (nfull b) rows ib ((jmin + j) mod nbas b) (rho ib x * vals j * w) Hs) as [r1 [E1 [S1 N1]]];
      [lia|pose proof (nb_le_full b); lia|].
    rewrite E1. cbn [bind].
    destruct (IH (fun t Ht => Hin t (or_intror Ht)) r1 S1) as [r2 [E2 [S2 N2]]].
    exists r2. split; [exact E2|]. split; [exact S2|]. intros ib' i'. rewrite N2, N1.
    assert (Ec : contrib b q rho ib' i' (ib, iq, j) = (if ((ib =? ib') && ((jmin + j) mod nbas b =? i'))%nat%bool then rho ib x * vals j * w else 0)).
    { unfold contrib. rewrite Eq, Ee. reflexivity. }
    rewrite Ec. lra.
Qed.

Lemma rhs_value b q rho nbatch sched ib i : bspline_basis b -> Permutation sched (all_tasks b q nbatch) -> (ib < nbatch)%nat ->
  lsum (contrib b q rho ib i) sched = quad q (fun x => rho ib x * bfun b i x).
Proof.
  intros Hb Hp Hib. rewrite (lsum_perm _ _ _ Hp). unfold all_tasks. rewrite lsum_prod, lsum_prod, lsum_seq.
  rewrite (Rsum_single nbatch _ ib Hib).
  - rewrite lsum_seq, quad_nth. apply Rsum_ext. intros iq Hiq. rewrite lsum_seq. unfold contrib.
    destruct (nth iq q (0, 0)) as [x w]. cbn [fst snd]. rewrite Nat.eqb_refl. cbn [andb]. unfold bfun.
    rewrite <- Rsum_scal, <- Rsum_scal. apply Rsum_ext. intros j _. destruct (_ =? i)%nat; lra.
  - intros k Hk Hne. rewrite lsum_seq. apply Rsum_zero. intros iq _. rewrite lsum_seq. apply Rsum_zero. intros j _.
    unfold contrib. destruct (nth iq q (0, 0)) as [x w]. replace (k =? ib)%nat with false by lia. reflexivity.
Qed.

Lemma rhs_ok b q rho nbatch sched : bspline_basis b -> Permutation sched (all_tasks b q nbatch) ->
  exists rows, run_tasks (rhs_task b q rho) sched (repeat (repeat 0 (nfull b)) nbatch) = Ok rows /\
    length rows = nbatch /\
    forall ib, (ib < nbatch)%nat -> length (nth ib rows []) = nfull b /\
      forall i, nth i (nth ib rows []) 0 = if (i <? nbas b)%nat then quad q (fun x => rho ib x * bfun b i x) else 0.
Proof.
  intros Hb Hp.
  assert (Hs : shaped nbatch (nfull b) (repeat (repeat 0 (nfull b)) nbatch)).
  { split; [apply repeat_length|]. intros ib Hib.
    assert (E : nth ib (repeat (repeat 0 (nfull b)) nbatch) [] = repeat 0 (nfull b)).
    { apply nth_error_nth. apply nth_error_repeat. exact Hib. }
    rewrite E. apply repeat_length. }
  destruct (run_tasks_ok b q rho nbatch sched Hb) with (rows := repeat (repeat 0 (nfull b)) nbatch) as [rows [E [[L S] N]]].
  { intros t Ht. eapply Permutation_in; eauto. }
  { exact Hs. }
  exists rows. split; [exact E|]. split; [exact L|]. intros ib Hib. split; [apply S; exact Hib|].
  intros i. change (nth i (nth ib rows []) 0) with (entry rows ib i). rewrite N, (rhs_value b q rho nbatch sched ib i Hb Hp Hib).
  assert (Z0 : entry (repeat (repeat 0 (nfull b)) nbatch) ib i = 0).
  { unfold entry. assert (E0 : nth ib (repeat (repeat 0 (nfull b)) nbatch) [] = repeat 0 (nfull b)).
    { apply nth_error_nth. apply nth_error_repeat. exact Hib. }
    rewrite E0. apply nth_repeat. }
  rewrite Z0. destruct (i <? nbas b)%nat eqn:Ei; [lra|].
  rewrite (quad_ext q _ (fun _ => 0)); [rewrite quad_zero; lra|]. intros x w _. unfold bfun. rewrite Rsum_zero; [lra|].
  intros j _. pose proof (Nat.mod_upper_bound (fst (ev b x) + j) (nbas b) (nb_pos b Hb)).
  replace ((fst (ev b x) + j) mod nbas b =? i)%nat with false by lia. reflexivity.
Qed.
