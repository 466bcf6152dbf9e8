(** The hypothesis [lapack_correct] is satisfiable: Gaussian elimination with
    pivoting on the exact reals is an instance.  (Models no code of /repo; it only
    shows that the oracle hypothesis of the solver theorems is not vacuous.) *)
From Verif Require Import Lib MatrixModel MatrixSpec MatrixSolveModel MatrixLinkModel.
From Coq Require Import ZifyBool.
Open Scope R_scope.

(** first row p < n with M p c <> 0, or n *)
Fixpoint find_pivot (n : nat) (M : mat) (c : nat) : nat :=
  match n with
  | O => O
  | S m => let p := find_pivot m M c in
           if Nat.ltb p m then p else if Req_EM_T (M m c) 0 then S m else m
  end.

Lemma find_pivot_spec n M c :
  ((find_pivot n M c < n)%nat /\ M (find_pivot n M c) c <> 0) \/
  (find_pivot n M c = n /\ forall i, (i < n)%nat -> M i c = 0).
Proof.
  induction n as [|m IH]; cbn [find_pivot]; [right; split; [reflexivity|intros; lia]|].
  cbv zeta. destruct IH as [[H1 H2]|[H1 H2]].
  - replace (Nat.ltb (find_pivot m M c) m) with true by lia. left; split; [lia|exact H2].
  - rewrite H1. replace (Nat.ltb m m) with false by lia.
    destruct (Req_EM_T (M m c) 0) as [E|E].
    + right; split; [lia|]. intros i Hi. destruct (Nat.eq_dec i m) as [->|]; [exact E|apply H2; lia].
    + left; split; [lia|exact E].
Qed.

(** i-th row other than p *)
Definition skip (p i : nat) : nat := if Nat.ltb i p then i else S i.

Fixpoint gauss (n : nat) (M : mat) (b : vec) : vec :=
  match n with
  | O => fun _ => 0
  | S m =>
      let p := find_pivot (S m) M m in
      let c i := M (skip p i) m / M p m in
      let M' i j := M (skip p i) j - c i * M p j in
      let b' i := b (skip p i) - c i * b p in
      let x := gauss m M' b' in
      fun j => if Nat.ltb j m then x j
               else (b p - Rsum m (fun k => M p k * x k)) / M p m
  end.

Lemma gauss_spec n : forall M, regular n M -> forall b, is_solution n M (gauss n M b) b.
Proof.
  induction n as [|m IH]; intros M HM b i Hi; [lia|].
  cbn [gauss]. cbv zeta.
  set (p := find_pivot (S m) M m).
  assert (Hp : (p < S m)%nat /\ M p m <> 0).
  { destruct (find_pivot_spec (S m) M m) as [H|[_ H]]; [exact H|exfalso].
    assert (E : (fun j : nat => if Nat.eqb j m then 1 else 0) m = 0).
    { apply (HM (fun j => if Nat.eqb j m then 1 else 0)); [|lia].
      intros a Ha. rewrite (Rsum_single _ _ m); [|lia|].
      - rewrite (H a Ha). lra.
      - intros j _ Hj. replace (Nat.eqb j m) with false by lia. lra. }
    cbv beta in E. rewrite Nat.eqb_refl in E. lra. }
  destruct Hp as [Hp Hpiv].
  set (c := fun i => M (skip p i) m / M p m).
  set (M' := fun i j => M (skip p i) j - c i * M p j).
  set (b' := fun i => b (skip p i) - c i * b p).
  assert (HM' : regular m M').
  { intros y Hy.
    set (z := fun j => if Nat.ltb j m then y j else - Rsum m (fun k => M p k * y k) / M p m).
    assert (Hz : forall j, (j < S m)%nat -> z j = 0).
    { apply HM. intros a Ha.
      assert (Ez : forall r, Rsum (S m) (fun j => M r j * z j) =
                   Rsum m (fun j => M r j * y j) - M r m * (Rsum m (fun k => M p k * y k) / M p m)).
      { intros r. cbn [Rsum]. unfold Rminus. f_equal.
        - apply Rsum_ext. intros j Hj. unfold z. replace (Nat.ltb j m) with true by lia. reflexivity.
        - unfold z. replace (Nat.ltb m m) with false by lia. field. exact Hpiv. }
      rewrite Ez.
      destruct (Nat.eq_dec a p) as [->|Hap]; [field; exact Hpiv|].
      assert (Ea : exists a', (a' < m)%nat /\ skip p a' = a).
      { destruct (Nat.ltb a p) eqn:El.
        - exists a. split; [lia|]. unfold skip. rewrite El. reflexivity.
        - exists (a - 1)%nat. split; [lia|]. unfold skip.
          replace (Nat.ltb (a - 1) p) with false by lia. lia. }
      destruct Ea as [a' [Ha' <-]].
      specialize (Hy a' Ha'). unfold M', c in Hy.
      rewrite (Rsum_ext m _ (fun j => M (skip p a') j * y j - M (skip p a') m / M p m * (M p j * y j))) in Hy
        by (intros; lra).
      rewrite Rsum_minus, Rsum_scal in Hy. rewrite <- Hy. field. exact Hpiv. }
    intros j Hj. rewrite <- (Hz j) by lia. unfold z. replace (Nat.ltb j m) with true by lia. reflexivity. }
  pose proof (IH M' HM' b') as Hx. set (x := gauss m M' b') in *.
  cbn [Rsum].
  rewrite (Rsum_ext m _ (fun j => M i j * x j)).
  2:{ intros j Hj. replace (Nat.ltb j m) with true by lia. reflexivity. }
  replace (Nat.ltb m m) with false by lia.
  change (gauss m (fun i j => M (skip p i) j - M (skip p i) m / M p m * M p j)
            (fun i => b (skip p i) - M (skip p i) m / M p m * b p)) with x.
  destruct (Nat.eq_dec i p) as [Eip|Hip].
  { rewrite Eip. field. exact Hpiv. }
  assert (Ea : exists a', (a' < m)%nat /\ skip p a' = i).
  { destruct (Nat.ltb i p) eqn:El.
    - exists i. split; [lia|]. unfold skip. rewrite El. reflexivity.
    - exists (i - 1)%nat. split; [lia|]. unfold skip.
      replace (Nat.ltb (i - 1) p) with false by lia. lia. }
  destruct Ea as [a' [Ha' <-]].
  specialize (Hx a' Ha'). unfold M', b', c in Hx.
  rewrite (Rsum_ext m _ (fun j => M (skip p a') j * x j - M (skip p a') m / M p m * (M p j * x j))) in Hx
    by (intros; lra).
  rewrite Rsum_minus, Rsum_scal in Hx.
  assert (E : Rsum m (fun j => M (skip p a') j * x j) =
              b (skip p a') - M (skip p a') m / M p m * b p +
              M (skip p a') m / M p m * Rsum m (fun j => M p j * x j)) by lra.
  rewrite E. field. exact Hpiv.
Qed.

(** the transpose of a regular matrix is regular *)
Lemma regular_transp n M : regular n M -> regular n (transp M).
Proof.
  intros HM y Hy i Hi.
  pose proof (gauss_spec n M HM (fun k => if Nat.eqb k i then 1 else 0)) as Hx.
  set (x := gauss n M _) in *.
  assert (E : Rsum n (fun k => y k * Rsum n (fun j => M k j * x j)) = 0).
  { rewrite (Rsum_ext n _ (fun k => Rsum n (fun j => y k * (M k j * x j)))).
    2:{ intros; rewrite Rsum_scal; reflexivity. }
    rewrite Rsum_swap. apply Rsum_zero. intros j Hj.
    rewrite (Rsum_ext n _ (fun k => transp M j k * y k * x j)) by (intros; unfold transp; lra).
    rewrite Rsum_scal_r. rewrite (Hy j Hj). lra. }
  rewrite (Rsum_ext n _ (fun k => y k * (if Nat.eqb k i then 1 else 0))) in E.
  2:{ intros k Hk. rewrite (Hx k Hk). reflexivity. }
  rewrite (Rsum_single n _ i Hi) in E.
  - rewrite Nat.eqb_refl in E. lra.
  - intros k _ Hk. replace (Nat.eqb k i) with false by lia. lra.
Qed.

Definition exact_lapack (_ : routine) (n : nat) (M : mat) (b : vec) : vec := gauss n M b.
Definition exact_lapackT (_ : routine) (n : nat) (M : mat) (b : vec) : vec := gauss n (transp M) b.

Lemma exact_lapack_correct : lapack_correct exact_lapack exact_lapackT.
Proof.
  split; intros n M.
  - intros H. split; intros b; apply gauss_spec; [exact H|apply regular_transp; exact H].
  - intros _ H.
    assert (HR : regular n M).
    { intros x Hx i Hi. destruct (Req_dec (x i) 0) as [E|E]; [exact E|exfalso].
      assert (P : 0 < Rsum n (fun i => Rsum n (fun j => x i * M i j * x j))) by (apply H; eauto).
      rewrite (Rsum_zero n) in P; [lra|].
      intros a Ha. rewrite (Rsum_ext n _ (fun j => x a * (M a j * x j))) by (intros; lra).
      rewrite Rsum_scal, Hx by exact Ha. lra. }
    split; intros b; apply gauss_spec; [exact HR|apply regular_transp; exact HR].
Qed.
