(** Concrete cases for C112. *)
From Coq Require Import Permutation ZifyBool.
From Verif Require Import GkoSpec.
From Verif Require Export GkoSolve.
Open Scope nat_scope.

(** a solver which returns [guess b], reports the norm of its residual and stops as documented *)
Definition ex_solver (n : nat) (A : nat -> matrix) (t : R) (guess : vector -> vector) : solver := fun k b _ =>
  Answer (guess b) 3 (Fin (residual n (A k) (guess b) b))
    (if Rle_dec (residual n (A k) (guess b) b) (t * norm n b) then true else false).

Lemma ex_reads n A t guess : (forall b b', same_rows n b b' -> same_rows n (guess b) (guess b')) ->
  reads_rows n (ex_solver n A t guess).
Proof.
  intros Hg k b b' x x' Hb _. unfold ex_solver. cbn [an_x an_iters an_resid an_converged].
  split; [exact (Hg b b' Hb)|]. split; [reflexivity|].
  cbn [an_resid an_converged].
  rewrite (residual_rows n (A k) (guess b) (guess b') b b') by auto. rewrite (norm_rows n b b') by auto. auto.
Qed.
Lemma ex_honest n A t guess : honest n A (ex_solver n A t guess).
Proof. intros k b x. reflexivity. Qed.
Lemma ex_reduction n A t guess : reduction_factor n A t (ex_solver n A t guess).
Proof. intros k b x. unfold ex_solver. cbn [an_converged an_x]. destruct (Rle_dec _ _); split; auto; try discriminate; tauto. Qed.

(** one system of one equation, x = b *)
Definition ex_id : nat -> matrix := fun _ _ _ => 1%R.
Definition ex_b : kview := KView 0 1 1 1 1.
Definition ex_mem (v : R) : memory := fun a => if (a =? 0)%Z then Some v else None.

Lemma ex_holds v : holds (ex_mem v) ex_b (fun _ _ => v).
Proof. intros i j Hi Hj. cbn in Hi, Hj. assert (i = 0) by lia. assert (j = 0) by lia. subst. reflexivity. Qed.
Lemma ex_contiguous : contiguous ex_b 1 1.
Proof. repeat split. Qed.

Lemma sqrt_sq1 r : sqrt (0 + r ^ 2) = Rabs r.
Proof. rewrite Rplus_0_l. rewrite <- sqrt_Rsqr_abs. f_equal. unfold Rsqr. ring. Qed.
Lemma ex_norm b : norm 1 b = Rabs (b 0).
Proof. unfold norm. cbn [Rsum]. apply sqrt_sq1. Qed.
Lemma ex_residual x b : residual 1 (ex_id 0) x b = Rabs (x 0 - b 0).
Proof.
  unfold residual. rewrite ex_norm. f_equal. cbn [Rsum]. unfold ex_id. ring.
Qed.

Definition guess_plus : vector -> vector := fun b r => (b r + 1)%R.
Definition guess_zero : vector -> vector := fun b r => 0%R.
Lemma ex_plus_reads t : reads_rows 1 (ex_solver 1 ex_id t guess_plus).
Proof. apply ex_reads. intros b b' H r Hr. unfold guess_plus. now rewrite H. Qed.
Lemma ex_zero_reads t : reads_rows 1 (ex_solver 1 ex_id t guess_zero).
Proof. apply ex_reads. intros b b' H r Hr. reflexivity. Qed.
