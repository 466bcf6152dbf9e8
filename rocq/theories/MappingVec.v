(** Proofs about metrics, changes of vector space and combined mappings (C28, C47). *)
From Coquelicot Require Import Coquelicot.
From Coq Require Import ZifyBool Lra Lia.
From Verif Require Import MappingSpec MathProofs RestrictProofs MappingProofs MappingCzarny MappingCyl.
Open Scope R_scope.

Lemma Rsum_delta n i v : (i < n)%nat -> Rsum n (fun j => (if (i =? j)%nat then 1 else 0) * v j) = v i.
Proof.
  intros Hi. induction n; [lia|]. simpl. destruct (Nat.eqb_spec i n) as [->|N].
  - rewrite Rsum_zero; [ring|]. intros j Hj. destruct (Nat.eqb_spec n j); [lia|ring].
  - rewrite IHn by lia. ring.
Qed.
Definition tr (A : nat -> nat -> R) : nat -> nat -> R := fun i j => A j i.
Lemma mat_vec_id n A v : is_identity n A -> forall i, (i < n)%nat -> Rsum n (fun j => A i j * v j) = v i.
Proof.
  intros H i Hi. rewrite (Rsum_ext n _ (fun j => (if (i =? j)%nat then 1 else 0) * v j)); [apply Rsum_delta; auto|].
  intros j Hj. rewrite H; auto.
Qed.
Lemma mat_vec_assoc n A B v i :
  Rsum n (fun j => A i j * Rsum n (fun k => B j k * v k)) = Rsum n (fun k => mmul n A B i k * v k).
Proof.
  unfold mmul. transitivity (Rsum n (fun j => Rsum n (fun k => A i j * B j k * v k))).
  - apply Rsum_ext. intros j _. rewrite <- Rsum_scal. apply Rsum_ext. intros; ring.
  - rewrite Rsum_swap. apply Rsum_ext. intros k _. rewrite Rsum_scal_r. reflexivity.
Qed.
Lemma id_tr n A B : is_identity n (mmul n A B) -> is_identity n (mmul n (tr B) (tr A)).
Proof.
  intros H i j Hi Hj. unfold mmul, tr. rewrite (Rsum_ext n _ (fun k => A j k * B k i)) by (intros; ring).
  change (mmul n A B j i = if (i =? j)%nat then 1 else 0). rewrite H by auto. rewrite Nat.eqb_sym. reflexivity.
Qed.
(** A (B v) = v when A B = 1 *)
Lemma cancel n A B v : is_identity n (mmul n A B) -> forall i, (i < n)%nat ->
  Rsum n (fun j => A i j * Rsum n (fun k => B j k * v k)) = v i.
Proof. intros H i Hi. rewrite mat_vec_assoc. apply mat_vec_id; auto. Qed.
Lemma mmul_assoc n A B C i j : mmul n (mmul n A B) C i j = mmul n A (mmul n B C) i j.
Proof. unfold mmul at 1 3. symmetry. apply (mat_vec_assoc n A B (fun k => C k j) i). Qed.
Lemma mmul_ext n A A' B B' : (forall i j, (i < n)%nat -> (j < n)%nat -> A i j = A' i j) ->
  (forall i j, (i < n)%nat -> (j < n)%nat -> B i j = B' i j) ->
  forall i j, (i < n)%nat -> (j < n)%nat -> mmul n A B i j = mmul n A' B' i j.
Proof. intros HA HB i j Hi Hj. unfold mmul. apply Rsum_ext. intros k Hk. rewrite HA, HB; auto. Qed.
Lemma mmul_id_l n I A : is_identity n I -> forall i j, (i < n)%nat -> mmul n I A i j = A i j.
Proof. intros H i j Hi. unfold mmul. apply (mat_vec_id n I (fun k => A k j)); auto. Qed.
(** (A B) (C D) = 1 when B C = 1 and A D = 1 *)
Lemma id_product n A B C D : is_identity n (mmul n B C) -> is_identity n (mmul n A D) ->
  is_identity n (mmul n (mmul n A B) (mmul n C D)).
Proof.
  intros H1 H2 i j Hi Hj. rewrite mmul_assoc.
  transitivity (mmul n A D i j); [|apply H2; auto].
  apply (mmul_ext n A A); auto. intros k l Hk Hl. rewrite <- mmul_assoc. apply mmul_id_l; auto.
Qed.

(** ** Metric tensor *)
Lemma metric_columns n m p i k : metric n m p i k = dot n (fun j => m_J m p j i) (fun j => m_J m p j k).
Proof. reflexivity. Qed.
Lemma metric_sym n m p i k : metric n m p i k = metric n m p k i.
Proof. unfold metric. apply Rsum_ext. intros; ring. Qed.
Lemma metric_inverse_ok n m p : invertible_at n m p ->
  exists h, metric_inverse n m p = Ok h /\ inverse_of n h (metric n m p) /\ forall i k, h i k = h k i.
Proof.
  intros (K & E & L & R). unfold metric_inverse. rewrite E. cbn [bind]. eexists. split; [reflexivity|].
  assert (G : forall i k, metric n m p i k = mmul n (tr (m_J m p)) (m_J m p) i k) by reflexivity.
  split; [split|].
  - apply (id_product n K (tr K) (tr (m_J m p)) (m_J m p)); [apply id_tr; auto|auto].
  - apply (id_product n (tr (m_J m p)) (m_J m p) K (tr K)); [auto|apply id_tr; auto].
  - intros i k. apply Rsum_ext. intros; ring.
Qed.

(** ** Changes of vector space *)
Lemma to_space_ok n m p s1 s2 v u : invertible_at n m p ->
  represents n (m_J m p) s1 v u ->
  exists w, to_vector_space true n m p s1 s2 v = Ok w /\ represents n (m_J m p) s2 w u.
Proof.
  intros (K & E & L & R) Rep. set (J := m_J m p) in *.
  destruct s1, s2; unfold to_vector_space, to_dual, to_other_basis, metric_inverse; cbn; rewrite ?E; cbn [bind];
    eexists; (split; [reflexivity|]); try exact Rep; intros i Hi; unfold mat_vec, tmat_vec, metric; fold J; unfold represents in Rep.
  - (* ArgContra -> ArgCov *)
    transitivity (Rsum n (fun j => tr J i j * Rsum n (fun k => J j k * v k))).
    + symmetry. apply (mat_vec_assoc n (tr J) J v i).
    + apply Rsum_ext. intros j Hj. unfold tr. rewrite <- (Rep j Hj). reflexivity.
  - symmetry. apply Rep; auto.
  - symmetry. apply Rep; auto.
  - (* ArgCov -> ArgContra *)
    transitivity (Rsum n (fun j => J i j * Rsum n (fun k => K j k * u k))); [symmetry; apply cancel; auto|].
    apply Rsum_ext. intros j Hj. f_equal. symmetry.
    transitivity (Rsum n (fun l => K j l * Rsum n (fun k => tr K l k * v k))); [symmetry; apply (mat_vec_assoc n K (tr K) v j)|].
    apply Rsum_ext. intros l Hl. f_equal.
    transitivity (Rsum n (fun k => tr K l k * Rsum n (fun q => tr J k q * u q))).
    + apply Rsum_ext. intros k Hk. rewrite Rep by auto. reflexivity.
    + apply (cancel n (tr K) (tr J)); auto. apply id_tr. auto.
  - transitivity (Rsum n (fun k => tr K i k * Rsum n (fun q => tr J k q * u q))).
    + apply Rsum_ext. intros k Hk. rewrite Rep by auto. reflexivity.
    + apply (cancel n (tr K) (tr J)); auto. apply id_tr. auto.
  - transitivity (Rsum n (fun k => tr K i k * Rsum n (fun q => tr J k q * u q))).
    + apply Rsum_ext. intros k Hk. rewrite Rep by auto. reflexivity.
    + apply (cancel n (tr K) (tr J)); auto. apply id_tr. auto.
  - (* ResContra -> ArgContra *)
    transitivity (Rsum n (fun j => J i j * Rsum n (fun k => K j k * u k))); [symmetry; apply cancel; auto|].
    apply Rsum_ext. intros j Hj. f_equal. apply Rsum_ext. intros k Hk. rewrite Rep by auto. reflexivity.
  - apply Rsum_ext. intros k Hk. rewrite Rep by auto. reflexivity.
  - transitivity (Rsum n (fun j => J i j * Rsum n (fun k => K j k * u k))); [symmetry; apply cancel; auto|].
    apply Rsum_ext. intros j Hj. f_equal. apply Rsum_ext. intros k Hk. rewrite Rep by auto. reflexivity.
  - apply Rsum_ext. intros k Hk. rewrite Rep by auto. reflexivity.
Qed.
Lemma represents_unique n m p s v w u : invertible_at n m p ->
  represents n (m_J m p) s v u -> represents n (m_J m p) s w u -> same_coord n v w.
Proof.
  intros (K & E & L & R) A B i Hi. destruct s; cbn in A, B; try (rewrite (A i Hi), (B i Hi); reflexivity).
  rewrite <- (cancel n K (m_J m p) v L i Hi), <- (cancel n K (m_J m p) w L i Hi).
  apply Rsum_ext. intros j Hj. rewrite <- (A j Hj), <- (B j Hj). reflexivity.
Qed.
Lemma represents_some n m p s v : invertible_at n m p -> exists u, represents n (m_J m p) s v u.
Proof.
  intros (K & E & L & R). destruct s.
  - exists (mat_vec n (m_J m p) v). intros i Hi. reflexivity.
  - exists (tmat_vec n K v). intros i Hi. cbn. symmetry.
    apply (cancel n (tr (m_J m p)) (tr K)); auto. apply id_tr; auto.
  - exists v. intros i Hi. reflexivity.
  - exists v. intros i Hi. reflexivity.
Qed.
Lemma round_trip n m p s1 s2 v : invertible_at n m p ->
  exists w z, to_vector_space true n m p s1 s2 v = Ok w /\ to_vector_space true n m p s2 s1 w = Ok z /\ same_coord n z v.
Proof.
  intros I. destruct (represents_some n m p s1 v I) as [u U].
  destruct (to_space_ok n m p s1 s2 v u I U) as (w & A & B). destruct (to_space_ok n m p s2 s1 w u I B) as (z & C & D).
  exists w, z. repeat split; auto. apply (represents_unique n m p s1 z v u); auto.
Qed.
Lemma path_independent n m p s1 s2 s3 v : invertible_at n m p ->
  exists w z z', to_vector_space true n m p s1 s2 v = Ok w /\ to_vector_space true n m p s2 s3 w = Ok z /\
    to_vector_space true n m p s1 s3 v = Ok z' /\ same_coord n z z'.
Proof.
  intros I. destruct (represents_some n m p s1 v I) as [u U].
  destruct (to_space_ok n m p s1 s2 v u I U) as (w & A & B). destruct (to_space_ok n m p s2 s3 w u I B) as (z & C & D).
  destruct (to_space_ok n m p s1 s3 v u I U) as (z' & C' & D').
  exists w, z, z'. repeat split; auto. apply (represents_unique n m p s3 z z' u); auto.
Qed.
Lemma pairing n m p a b ua ub : represents n (m_J m p) ArgCov a ua -> represents n (m_J m p) ArgContra b ub ->
  dot n a b = dot n ua ub.
Proof.
  intros A B. unfold dot. cbn in A, B.
  transitivity (Rsum n (fun i => Rsum n (fun j => m_J m p j i * ua j * b i))).
  { apply Rsum_ext. intros i Hi. rewrite A by auto. rewrite <- Rsum_scal_r. reflexivity. }
  rewrite Rsum_swap. apply Rsum_ext. intros j Hj. rewrite B by auto. rewrite <- Rsum_scal. apply Rsum_ext. intros; ring.
Qed.
