(** Norms: refuted claims and examples. *)
From Coq Require Import Lra Lia Permutation.
From Verif Require Import NrmSpec NrmProofs NrmQuad.
Open Scope R_scope.

Lemma dlt_nan : forall x, dlt x NaN = false.
Proof. intros [a|[]|]; reflexivity. Qed.
Lemma nan_vector : norm_inf_components [NaN; NaN] = Fin 0.
Proof. unfold norm_inf_components, dmax. cbn [fold_left dabs]. rewrite !dlt_nan. reflexivity. Qed.
Lemma rmax_00 : reducer_max (Fin 0) (Fin 0) = Fin 0.
Proof. unfold reducer_max. cbn. destruct (Rlt_dec 0 0); reflexivity. Qed.
(** a field of vectors full of NaN has the norm 0; on several patches a field of NaN has the error 0 *)
Lemma nan_ignored :
  (forall n t, order_of n t -> norm_inf t (fun _ => Vector [NaN; NaN]) = Fin 0) /\
  (forall exact, norm_inf (Leaf 0) (fun _ => Scalar NaN) = NaN /\
     multipatch_error_norm_inf [(Leaf 0, fun _ => Scalar NaN, fun _ => Scalar (Fin exact))] = Fin 0).
Proof.
  split.
  - intros n t _. unfold norm_inf. cbn [norm_inf_elem]. rewrite nan_vector.
    assert (E : reduce t (fun _ => Fin 0) = Fin 0).
    { induction t as [i|l IHl r IHr|]; cbn; [reflexivity|rewrite IHl, IHr; apply rmax_00|reflexivity]. }
    rewrite E. apply rmax_00.
  - intros exact. split; reflexivity.
Qed.
(** with NaN the norm depends on the order of the reduction *)
Lemma nan_order : exists n t t' e, order_of n t /\ order_of n t' /\ norm_inf t e = Fin 1 /\ norm_inf t' e = NaN.
Proof.
  exists 2%nat, (Node (Leaf 0) (Leaf 1)), (Node (Leaf 1) (Leaf 0)), (fun i => Scalar (match i with O => NaN | _ => Fin 1 end)).
  split; [apply Permutation_refl|]. split; [apply perm_swap|]. split.
  - unfold norm_inf, reducer_max. cbn. rewrite Rabs_R1. destruct (Rlt_dec 1 0); [lra|reflexivity].
  - unfold norm_inf, reducer_max. cbn. reflexivity.
Qed.
(** a field which lacks a point of the quadrature is read outside of its range *)
Lemma uncovered : exists g c f, (forall i, in_nd g i -> 0 < c i) /\ norm_L1 g c f = Ub /\ norm_L2 g c f = Ub /\ error_norm_L2 g c f f = Ub.
Proof.
  exists [(0%Z, 3%nat)], (fun _ => 1), (Field [(0%Z, 2%nat)] (fun _ => 0)). split; [intros; lra|]. repeat split; reflexivity.
Qed.
Lemma negative_coefficient : exists g c f, covers g f /\ norm_L2 g c f = Ok NaN.
Proof.
  exists [], (fun _ => -1), (Field [] (fun _ => 1)). split; [intros i Hi; exact Hi|].
  unfold norm_L2, quadrature, dsqrt. cbn. destruct (Rlt_dec _ 0) as [_|H]; [reflexivity|lra].
Qed.

(** ** Examples *)
Definition xf : nat -> elem := fun i => Vector [Fin (INR i); Fin (- INR (2 * i))].
Example ex_norm : order_of 3 (Node (Leaf 2) (Node Neutral (Node (Leaf 0) (Leaf 1)))) /\
  (forall i x, (i < 3)%nat -> In x (components (xf i)) -> number x) /\
  norm_inf (Node (Leaf 2) (Node Neutral (Node (Leaf 0) (Leaf 1)))) xf = Fin 4.
Proof.
  assert (P : order_of 3 (Node (Leaf 2) (Node Neutral (Node (Leaf 0) (Leaf 1))))).
  { unfold order_of. cbn. apply Permutation_sym. apply (perm_trans (perm_skip 0%nat (perm_swap 2 1 [])%nat)). apply perm_swap. }
  assert (H : forall i x, (i < 3)%nat -> In x (components (xf i)) -> number x).
  { intros i x _ [<-|[<-|[]]]; discriminate. }
  split; [exact P|]. split; [exact H|].
  apply (lub_unique (map dabs (all_components 3 xf))); [exact (norm_tree_lub 3 _ xf P H)|].
  split; [|split].
  - intros x Hx. cbn in Hx. repeat (destruct Hx as [<-|Hx]; [cbn; unfold Rabs; destruct (Rcase_abs _); lra|]). destruct Hx.
  - right. cbn. do 5 right. left. f_equal. unfold Rabs. destruct (Rcase_abs _); lra.
  - cbn. lra.
Qed.
Example ex_quad : (forall i, in_nd [(0%Z, 2%nat)] i -> 0 < (fun i : nd_idx => match i with [0%Z] => 1 | _ => 2 end) i) /\
  covers [(0%Z, 2%nat)] (Field [((-1)%Z, 5%nat)] (fun _ => -3)).
Proof.
  split.
  - intros i _. destruct i as [|[| |] []]; lra.
  - intros [|k [|? ?]] H; cbn in *; try tauto. destruct H as [H _]. lia.
Qed.
Example ex_L1 : norm_L1 [(0%Z, 2%nat)] (fun i => match i with [0%Z] => 1 | _ => 2 end) (Field [((-1)%Z, 5%nat)] (fun _ => -3)) = Ok (Fin 9).
Proof.
  rewrite (proj1 (norm_L1_value _ _ _) (proj2 ex_quad)). do 2 f_equal. cbn. rewrite Rabs_left by lra. lra.
Qed.
