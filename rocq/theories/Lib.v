(** Shared vocabulary of the model: program outcomes, buffers, counted loops and
    finite real sums.  Nothing in this file models a function of /repo by itself:
    it is the small "language" (C++ for loops, arrays, assertions, exceptions) in
    which the other Model files are written, with its elementary lemmas. *)
From Coq Require Export Reals List Arith ZArith Lia Lra Bool.
Export ListNotations.
Open Scope R_scope.

(** ** Outcomes.  [Ub] is undefined behaviour (out-of-bounds access, ...),
    [AssertFail] a failed assert()/GSLX_ASSERT, [Throw] a C++ exception. *)
Inductive res (A : Type) : Type :=
| Ok : A -> res A
| Throw : res A
| AssertFail : res A
| Ub : res A.
Arguments Ok {A} _.
Arguments Throw {A}.
Arguments AssertFail {A}.
Arguments Ub {A}.

Definition bind {A B} (x : res A) (f : A -> res B) : res B :=
  match x with
  | Ok a => f a
  | Throw => Throw
  | AssertFail => AssertFail
  | Ub => Ub
  end.
Notation "'let*' x ':=' e 'in' f" := (bind e (fun x => f))
  (at level 200, x pattern, e at level 100, f at level 200, right associativity).

Definition check (b : bool) : res unit := if b then Ok tt else AssertFail.

(** ** Buffers: a C array of known length; any access outside is [Ub]. *)
Definition rd {A} (b : list A) (i : Z) : res A :=
  if (i <? 0)%Z then Ub
  else match nth_error b (Z.to_nat i) with Some x => Ok x | None => Ub end.

Fixpoint replace_nth {A} (b : list A) (i : nat) (x : A) : list A :=
  match b, i with
  | [], _ => []
  | _ :: t, O => x :: t
  | h :: t, S i' => h :: replace_nth t i' x
  end.

Definition wr {A} (b : list A) (i : Z) (x : A) : res (list A) :=
  if ((i <? 0) || (Z.of_nat (length b) <=? i))%Z then Ub
  else Ok (replace_nth b (Z.to_nat i) x).

Lemma replace_nth_length {A} (b : list A) i x : length (replace_nth b i x) = length b.
Proof. revert i; induction b as [|h t IH]; intros [|i]; simpl; auto. Qed.

Lemma nth_error_replace_eq {A} (b : list A) i x :
  (i < length b)%nat -> nth_error (replace_nth b i x) i = Some x.
Proof.
  revert i; induction b as [|h t IH]; intros [|i] H; simpl in *; try lia; auto.
  apply IH; lia.
Qed.

Lemma nth_error_replace_neq {A} (b : list A) i j x :
  i <> j -> nth_error (replace_nth b i x) j = nth_error b j.
Proof.
  revert i j; induction b as [|h t IH]; intros [|i] [|j] H; simpl in *; try congruence; auto.
Qed.

Lemma wr_ok {A} (b : list A) i x :
  (0 <= i < Z.of_nat (length b))%Z -> wr b i x = Ok (replace_nth b (Z.to_nat i) x).
Proof.
  intros H; unfold wr.
  replace ((i <? 0) || (Z.of_nat (length b) <=? i))%Z with false by lia. reflexivity.
Qed.

Lemma rd_ok {A} (b : list A) i :
  (0 <= i < Z.of_nat (length b))%Z -> exists x, rd b i = Ok x.
Proof.
  intros H; unfold rd.
  replace (i <? 0)%Z with false by lia.
  destruct (nth_error b (Z.to_nat i)) as [x|] eqn:E; [eauto|].
  apply nth_error_None in E; lia.
Qed.

Lemma rd_wr_eq {A} (b b' : list A) i x :
  wr b i x = Ok b' -> rd b' i = Ok x.
Proof.
  unfold wr, rd.
  destruct (((i <? 0) || (Z.of_nat (length b) <=? i))%Z) eqn:E; [discriminate|].
  intros H; injection H as <-.
  replace (i <? 0)%Z with false by lia.
  rewrite nth_error_replace_eq by lia. reflexivity.
Qed.

Lemma rd_wr_neq {A} (b b' : list A) i j x :
  wr b i x = Ok b' -> i <> j -> rd b' j = rd b j.
Proof.
  unfold wr, rd.
  destruct (((i <? 0) || (Z.of_nat (length b) <=? i))%Z) eqn:E; [discriminate|].
  intros H Hn; injection H as <-.
  destruct (j <? 0)%Z eqn:Ej; [reflexivity|].
  rewrite nth_error_replace_neq by lia. reflexivity.
Qed.

Lemma wr_length {A} (b b' : list A) i x : wr b i x = Ok b' -> length b' = length b.
Proof.
  unfold wr. destruct (_ || _)%bool; [discriminate|].
  intros H; injection H as <-. apply replace_nth_length.
Qed.

Lemma rd_repeat {A} (x : A) n i :
  (0 <= i < Z.of_nat n)%Z -> rd (repeat x n) i = Ok x.
Proof.
  intros H; unfold rd. replace (i <? 0)%Z with false by lia.
  rewrite nth_error_repeat by lia. reflexivity.
Qed.

(** ** Counted loops: [for_loop n body s] is
    [for (int i = 0; i < n; ++i) s = body(i, s);] *)
Fixpoint for_loop {S : Type} (n : nat) (body : nat -> S -> S) (s : S) : S :=
  match n with
  | O => s
  | Datatypes.S m => body m (for_loop m body s)
  end.

Lemma for_loop_inv {S} (I : nat -> S -> Prop) n body (s : S) :
  I O s ->
  (forall i t, (i < n)%nat -> I i t -> I (Datatypes.S i) (body i t)) ->
  I n (for_loop n body s).
Proof.
  intros H0 Hs; induction n as [|n IH]; simpl; auto.
  apply Hs; [lia|]. apply IH; intros; apply Hs; auto; lia.
Qed.

Lemma for_loop_ext {S} n (b1 b2 : nat -> S -> S) s :
  (forall i t, (i < n)%nat -> b1 i t = b2 i t) -> for_loop n b1 s = for_loop n b2 s.
Proof.
  intros H; induction n as [|n IH]; simpl; auto.
  rewrite IH by (intros; apply H; lia). apply H; lia.
Qed.

(** ** Finite real sums [Rsum n f = f 0 + ... + f (n-1)] (mathematical spec). *)
Fixpoint Rsum (n : nat) (f : nat -> R) : R :=
  match n with
  | O => 0
  | S m => Rsum m f + f m
  end.

Lemma Rsum_ext n f g : (forall i, (i < n)%nat -> f i = g i) -> Rsum n f = Rsum n g.
Proof.
  intros H; induction n as [|n IH]; simpl; auto.
  rewrite IH by (intros; apply H; lia). rewrite H by lia. reflexivity.
Qed.

Lemma Rsum_plus n f g : Rsum n (fun i => f i + g i) = Rsum n f + Rsum n g.
Proof. induction n as [|n IH]; simpl; [lra|rewrite IH; lra]. Qed.

Lemma Rsum_minus n f g : Rsum n (fun i => f i - g i) = Rsum n f - Rsum n g.
Proof. induction n as [|n IH]; simpl; [lra|rewrite IH; lra]. Qed.

Lemma Rsum_opp n f : Rsum n (fun i => - f i) = - Rsum n f.
Proof. induction n as [|n IH]; simpl; [lra|rewrite IH; lra]. Qed.

Lemma Rsum_scal n c f : Rsum n (fun i => c * f i) = c * Rsum n f.
Proof. induction n as [|n IH]; simpl; [lra|rewrite IH; lra]. Qed.

Lemma Rsum_scal_r n c f : Rsum n (fun i => f i * c) = Rsum n f * c.
Proof. induction n as [|n IH]; simpl; [lra|rewrite IH; lra]. Qed.

Lemma Rsum_zero n f : (forall i, (i < n)%nat -> f i = 0) -> Rsum n f = 0.
Proof.
  intros H; induction n as [|n IH]; simpl; auto.
  rewrite IH by (intros; apply H; lia). rewrite H by lia. lra.
Qed.

Lemma Rsum_swap n m f :
  Rsum n (fun i => Rsum m (fun j => f i j)) = Rsum m (fun j => Rsum n (fun i => f i j)).
Proof.
  induction n as [|n IH]; simpl.
  - symmetry; apply Rsum_zero; auto.
  - rewrite IH, <- Rsum_plus. reflexivity.
Qed.

Lemma Rsum_app n m f : Rsum (n + m) f = Rsum n f + Rsum m (fun i => f (n + i)%nat).
Proof.
  induction m as [|m IH]; simpl.
  - rewrite Nat.add_0_r; lra.
  - rewrite Nat.add_succ_r; simpl. rewrite IH. lra.
Qed.

Lemma Rsum_first n f : Rsum (S n) f = f O + Rsum n (fun i => f (S i)).
Proof.
  induction n as [|n IH]; [simpl; lra|].
  change (Rsum (S (S n)) f) with (Rsum (S n) f + f (S n)).
  rewrite IH. simpl. lra.
Qed.

Lemma Rsum_nonneg n f : (forall i, (i < n)%nat -> 0 <= f i) -> 0 <= Rsum n f.
Proof.
  intros H; induction n as [|n IH]; simpl; [lra|].
  assert (0 <= Rsum n f) by (apply IH; intros; apply H; lia).
  assert (0 <= f n) by (apply H; lia). lra.
Qed.

Lemma Rsum_le n f g : (forall i, (i < n)%nat -> f i <= g i) -> Rsum n f <= Rsum n g.
Proof.
  intros H; induction n as [|n IH]; simpl; [lra|].
  assert (Rsum n f <= Rsum n g) by (apply IH; intros; apply H; lia).
  assert (f n <= g n) by (apply H; lia). lra.
Qed.

Lemma Rsum_single n f k :
  (k < n)%nat -> (forall i, (i < n)%nat -> i <> k -> f i = 0) -> Rsum n f = f k.
Proof.
  intros Hk H; induction n as [|n IH]; simpl; [lia|].
  destruct (Nat.eq_dec k n) as [->|Hn].
  - rewrite Rsum_zero; [lra|]. intros; apply H; lia.
  - rewrite IH; [|lia|intros; apply H; lia]. rewrite (H n) by lia. lra.
Qed.

Lemma Rsum_const n c : Rsum n (fun _ => c) = INR n * c.
Proof.
  induction n as [|n IH]; [simpl; lra|].
  rewrite S_INR. simpl Rsum. rewrite IH. lra.
Qed.

(** Telescoping. *)
Lemma Rsum_telescope n f : Rsum n (fun i => f (S i) - f i) = f n - f O.
Proof. induction n as [|n IH]; simpl; [lra|rewrite IH; lra]. Qed.

(** An accumulation loop [acc = c; for i: acc += f(i)] computes a sum. *)
Lemma for_loop_acc n f c :
  for_loop n (fun i acc => acc + f i) c = c + Rsum n f.
Proof. induction n as [|n IH]; simpl; [lra|rewrite IH; lra]. Qed.

(** ** Arrays of reals seen as functions (views into a buffer): point update. *)
Definition upd {A} (f : nat -> A) (i : nat) (x : A) : nat -> A :=
  fun j => if Nat.eqb j i then x else f j.

Lemma upd_eq {A} (f : nat -> A) i x : upd f i x i = x.
Proof. unfold upd; rewrite Nat.eqb_refl; reflexivity. Qed.
Lemma upd_neq {A} (f : nat -> A) i j x : j <> i -> upd f i x j = f j.
Proof. unfold upd; intros H; apply Nat.eqb_neq in H; rewrite H; reflexivity. Qed.

(** ** Dense matrix-vector product (mathematical spec). *)
Definition mat := nat -> nat -> R.
Definition vec := nat -> R.
Definition mulv (n : nat) (M : mat) (x : vec) : vec := fun i => Rsum n (fun j => M i j * x j).
Definition transp (M : mat) : mat := fun i j => M j i.
