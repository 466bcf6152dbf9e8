(** Parallel writes, and the rows of the finite element matrix. *)
From Coq Require Import ZifyBool Sorted.
From Verif Require Import Lib DerivModel QuadModel FemModel FemSolve QuadProofs PspModel PspProofs PpfModel PpfSpec.
Open Scope nat_scope.

(** ** Parallel loops *)
(** [s'] is [s] with the values of F at the positions W *)
Definition wrote {A} (dft : A) (F : nat -> A) (W : nat -> Prop) (s s' : list A) : Prop :=
  length s' = length s /\ (forall i, W i -> nth i s' dft = F i) /\ forall i, ~ W i -> nth i s' dft = nth i s dft.
(** [s] has the values of F at the positions W *)
Definition agrees {A} (dft : A) (F : nat -> A) (W : nat -> Prop) (s : list A) : Prop := forall i, W i -> nth i s dft = F i.

Lemma par_writes {A} (dft : A) F (W : nat -> nat -> Prop) n body ord (s : list A) D :
  (forall k s, In k ord -> length s = n -> exists s', body k s = Ok s' /\ wrote dft F (W k) s s') ->
  (forall k i, {W k i} + {~ W k i}) ->
  length s = n -> agrees dft F D s ->
  exists s', par ord body s = Ok s' /\ length s' = n /\ agrees dft F (fun i => D i \/ exists k, In k ord /\ W k i) s'.
Proof.
  intros HB DW. revert s D. induction ord as [|k ord IH]; intros s D HL HD; cbn [par].
  - exists s. split; [reflexivity|]. split; [exact HL|]. intros i [Hi|[k [[] _]]]. auto.
  - destruct (HB k s (or_introl eq_refl) HL) as [s1 [E1 [L1 [W1 U1]]]]. rewrite E1. cbn [bind].
    destruct (IH (fun k s H => HB k s (or_intror H)) s1 (fun i => D i \/ W k i)) as [s2 [E2 [L2 A2]]].
    + congruence.
    + intros i Hi. destruct (DW k i) as [w|w]; [auto|]. rewrite U1 by exact w. destruct Hi as [Hi|Hi]; [auto|contradiction].
    + exists s2. split; [exact E2|]. split; [exact L2|]. intros i Hi. apply A2.
      destruct Hi as [Hi|[k' [[->|Hk] Hw]]]; eauto.
Qed.
Lemma all_tasks (sched : schedule) k n t : any_order sched -> In t (sched k n) <-> t < n.
Proof.
  intros H. pose proof (H k n) as P. split; intros Hi.
  - apply (Permutation_in _ P) in Hi. apply in_seq in Hi. lia.
  - apply (Permutation_in _ (Permutation_sym P)). apply in_seq. lia.
Qed.
(** one write *)
Lemma wrote_one {A} (dft : A) F (s : list A) i x : i < length s -> F i = x ->
  exists s', wr s (Z.of_nat i) x = Ok s' /\ wrote dft F (fun k => k = i) s s'.
Proof.
  intros Hi HF. destruct (wr_nth s i x dft Hi) as [s' [E [L N]]]. exists s'. split; [exact E|]. split; [exact L|]. split.
  - intros k ->. rewrite N, Nat.eqb_refl. auto.
  - intros k Hk. rewrite N. destruct (Nat.eqb_spec k i); [contradiction|reflexivity].
Qed.
Lemma wrote_trans {A} (dft : A) F W1 W2 s1 s2 s3 : wrote dft F W1 s1 s2 -> wrote dft F W2 s2 s3 -> (forall i, {W2 i} + {~ W2 i}) ->
  @wrote A dft F (fun i => W1 i \/ W2 i) s1 s3.
Proof.
  intros [L1 [A1 U1]] [L2 [A2 U2]] D2. split; [congruence|]. split.
  - intros i Hi. destruct (D2 i) as [w|w]; [auto|]. rewrite U2 by exact w. destruct Hi; [auto|contradiction].
  - intros i Hi. rewrite U2, U1; auto.
Qed.
Lemma wrote_iff {A} (dft : A) F W W' s s' : wrote dft F W s s' -> (forall i, W i <-> W' i) -> wrote dft F W' s s'.
Proof. intros [L [H1 H2]] E. split; [exact L|]. split; intros i Hi; [apply H1, E, Hi|apply H2; intros w; apply Hi, E, w]. Qed.
(** all positions written: the list is determined *)
Lemma agrees_all {A} (dft : A) F W n s : length s = n -> agrees dft F W s -> (forall i, i < n -> W i) -> s = map F (seq 0 n).
Proof.
  intros HL HA HW. apply (nth_ext _ _ dft dft); [rewrite map_length, seq_length; exact HL|].
  intros i Hi. rewrite HA by (apply HW; lia). rewrite (nth_indep _ dft (F 0)) by (rewrite map_length, seq_length; lia).
  rewrite map_nth, seq_nth by lia. reflexivity.
Qed.

(** ** Concatenated rows *)
Section Concat.
  Variables (A : Type) (dft : A) (row : nat -> list A).
  Definition upto (i : nat) : nat := length (flat_map row (seq 0 i)).
  Lemma upto_0 : upto 0 = 0.
  Proof. reflexivity. Qed.
  Lemma upto_S i : upto (S i) = upto i + length (row i).
  Proof. unfold upto. rewrite seq_S, flat_map_app, app_length. cbn. rewrite app_nil_r. reflexivity. Qed.
  Lemma upto_le i j : i <= j -> upto i <= upto j.
  Proof. induction 1; [lia|]. rewrite upto_S. lia. Qed.
  Lemma concat_nth n i m : i < n -> m < length (row i) -> nth (upto i + m) (flat_map row (seq 0 n)) dft = nth m (row i) dft.
  Proof.
    intros Hi Hm. replace n with (i + S (n - i - 1)) by lia. rewrite seq_app, flat_map_app. cbn [seq flat_map Nat.add].
    rewrite app_nth2 by (unfold upto; lia). unfold upto at 1. replace (_ + m - _) with m by lia. rewrite app_nth1 by exact Hm. reflexivity.
  Qed.
  (** the position of every element *)
  Lemma upto_find n k : k < upto n -> exists i m, i < n /\ m < length (row i) /\ k = upto i + m.
  Proof.
    induction n as [|n IH]; [cbn; lia|]. rewrite upto_S. intros H. destruct (lt_dec k (upto n)) as [L|L].
    - destruct (IH L) as [i [m [H1 [H2 H3]]]]. exists i, m. split; [lia|auto].
    - exists n, (k - upto n). split; [lia|]. split; lia.
  Qed.
  Lemma upto_length n : length (flat_map row (seq 0 n)) = upto n.
  Proof. reflexivity. Qed.
End Concat.

(** ** The rows *)
Section Rows.
  Variables (ns d nt N : nat).
  Hypothesis Hnt : 2 * d + 2 <= nt.
  Hypothesis HN : 2 * d <= N.
  (** poloidal neighbours, in increasing order *)
  Definition th_row (it : nat) : list nat :=
    if it <? d then seq 0 (it + d + 1) ++ seq (it + nt - d) (d - it)
    else if it + d + 1 <? nt then seq (it - d) (2 * d + 1)
    else seq 0 (it + d + 1 - nt) ++ seq (it - d) (nt - (it - d)).
  Definition rad_row (q : nat) : list nat := seq (q - d) (Nat.min N (q + d + 1) - (q - d)).
  Definition tensor_part (q it : nat) : list nat := flat_map (fun q' => map (fun j => ns + q' * nt + j) (th_row it)) (rad_row q).
  Definition sing_part (q : nat) : list nat := if q <? d then seq 0 ns else [].
  Definition row (i : nat) : list nat :=
    if i <? ns then seq 0 (ns + d * nt) else sing_part ((i - ns) / nt) ++ tensor_part ((i - ns) / nt) ((i - ns) mod nt).
  Lemma th_len it : it < nt -> length (th_row it) = 2 * d + 1.
  Proof. intros H. unfold th_row. destruct (it <? d) eqn:E; [|destruct (it + d + 1 <? nt) eqn:E2]; rewrite ?app_length, ?seq_length; lia. Qed.
  (** supports which meet: cell b carries function it *)
  Definition near (it b : nat) : Prop := b <= it <= b + d \/ b <= it + nt <= b + d.
  Lemma th_in it jt : it < nt -> jt < nt -> In jt (th_row it) <-> exists b, b < nt /\ near it b /\ near jt b.
  Proof.
    intros Hi Hj. unfold th_row, near. destruct (it <? d) eqn:E; [|destruct (it + d + 1 <? nt) eqn:E2]; rewrite ?in_app_iff, ?in_seq; split.
    - intros [H|H].
      + destruct (le_dec jt it); [destruct (le_dec d it)|destruct (le_dec d jt)].
        * exists (it - d). lia.
        * exists 0. lia.
        * exists (jt - d). lia.
        * exists 0. lia.
      + exists (it + nt - d). lia.
    - intros [b H]. lia.
    - intros H. destruct (le_dec jt it); [exists (it - d)|exists (jt - d)]; lia.
    - intros [b H]. lia.
    - intros [H|H].
      + exists (jt + nt - d). lia.
      + destruct (le_dec jt it); [exists (it - d)|exists (jt - d)]; lia.
    - intros [b H]. lia.
  Qed.
  Lemma th_lt it j : it < nt -> In j (th_row it) -> j < nt.
  Proof. intros H. unfold th_row. destruct (it <? d) eqn:E; [|destruct (it + d + 1 <? nt) eqn:E2]; rewrite ?in_app_iff, ?in_seq; lia. Qed.
  Lemma rad_in q q' : q < N -> In q' (rad_row q) <-> q' < N /\ q <= q' + d /\ q' <= q + d.
  Proof. intros H. unfold rad_row. rewrite in_seq. lia. Qed.
  Lemma flat_map_length {A B} (f : A -> list B) l m : (forall x, In x l -> length (f x) = m) -> length (flat_map f l) = length l * m.
  Proof. induction l as [|a l IH]; intros H; cbn; [reflexivity|]. rewrite app_length, IH, H by firstorder. reflexivity. Qed.
  Definition weight (q : nat) : nat := (if q <? d then ns else 0) + (Nat.min N (q + d + 1) - (q - d)) * (2 * d + 1).
  Lemma tensor_len q it : it < nt -> length (tensor_part q it) = (Nat.min N (q + d + 1) - (q - d)) * (2 * d + 1).
  Proof. intros H. unfold tensor_part. rewrite (flat_map_length _ _ (2 * d + 1)); [unfold rad_row; rewrite seq_length; reflexivity|]. intros. rewrite map_length. apply th_len, H. Qed.
  Lemma sing_len q : length (sing_part q) = if q <? d then ns else 0.
  Proof. unfold sing_part. destruct (q <? d); [apply seq_length|reflexivity]. Qed.
  Lemma row_tensor q it : it < nt -> row (ns + q * nt + it) = sing_part q ++ tensor_part q it.
  Proof.
    intros H. unfold row. replace (_ <? ns) with false by lia. replace (ns + q * nt + it - ns) with (it + q * nt) by lia.
    rewrite Nat.div_add, Nat.mod_add by lia. rewrite Nat.div_small, Nat.mod_small by lia. reflexivity.
  Qed.
  Lemma row_tensor_len q it : it < nt -> length (row (ns + q * nt + it)) = weight q.
  Proof. intros H. rewrite row_tensor by exact H. rewrite app_length, sing_len, tensor_len by exact H. reflexivity. Qed.
  Lemma row_sing i : i < ns -> row i = seq 0 (ns + d * nt).
  Proof. intros H. unfold row. replace (i <? ns) with true by lia. reflexivity. Qed.
  (** prefix sums *)
  Notation up := (upto nat row).
  Lemma up_sing i : i <= ns -> up i = i * (ns + d * nt).
  Proof.
    induction i as [|i IH]; intros H; [reflexivity|]. rewrite upto_S, IH, row_sing, seq_length by lia. lia.
  Qed.
  Fixpoint nsum (n : nat) (f : nat -> nat) : nat := match n with O => 0 | S k => nsum k f + f k end.
  Lemma up_theta q it : it <= nt -> up (ns + q * nt + it) = up (ns + q * nt) + it * weight q.
  Proof.
    induction it as [|it IH]; intros H; [rewrite Nat.add_0_r; lia|].
    replace (ns + q * nt + S it) with (S (ns + q * nt + it)) by lia. rewrite upto_S, IH, row_tensor_len by lia. lia.
  Qed.
  Lemma up_radial q : up (ns + q * nt) = ns * (ns + d * nt) + nt * nsum q weight.
  Proof.
    induction q as [|q IH]; [cbn [nsum Nat.mul]; rewrite Nat.add_0_r, up_sing by lia; lia|].
    replace (ns + S q * nt) with (ns + q * nt + nt) by lia. rewrite up_theta, IH by lia. cbn [nsum]. lia.
  Qed.
  Lemma weight_inner q : q < d -> weight q = ns + (d + q + 1) * (2 * d + 1).
  Proof. intros H. unfold weight. replace (q <? d) with true by lia. replace (Nat.min N (q + d + 1) - (q - d)) with (d + q + 1) by lia. reflexivity. Qed.
  Lemma weight_stencil q : d <= q -> q < N - d -> weight q = (2 * d + 1) * (2 * d + 1).
  Proof. intros H H'. unfold weight. replace (q <? d) with false by lia. replace (Nat.min N (q + d + 1) - (q - d)) with (2 * d + 1) by lia. reflexivity. Qed.
  Lemma weight_outer q : N - d <= q -> q < N -> weight q = (2 * d - (q - (N - d))) * (2 * d + 1).
  Proof. intros H H'. unfold weight. replace (q <? d) with false by lia. replace (Nat.min N (q + d + 1) - (q - d)) with (2 * d - (q - (N - d))) by lia. reflexivity. Qed.
  Open Scope Z_scope.
  Notation z := Z.of_nat.
  Lemma sum_inner q : (q <= d)%nat -> 2 * z (nsum q weight) = 2 * (z ns * z q) + (2 * z d + 1) * (z q * (2 * z d + z q + 1)).
  Proof.
    induction q as [|q IH]; intros H; [cbn [nsum]; nia|]. cbn [nsum]. rewrite Nat2Z.inj_add, Z.mul_add_distr_l, IH, weight_inner by lia.
    rewrite Nat2Z.inj_add, Nat2Z.inj_mul, Nat2Z.inj_succ, !Nat2Z.inj_add, Nat2Z.inj_mul. unfold Z.succ. change (z 1) with 1. change (z 2) with 2. ring.
  Qed.
  Lemma sum_stencil q : (d <= q)%nat -> (q <= N - d)%nat -> z (nsum q weight) = z (nsum d weight) + (z q - z d) * ((2 * z d + 1) * (2 * z d + 1)).
  Proof.
    intros H. induction H as [|q H IH]; intros H'; [ring|]. cbn [nsum]. rewrite Nat2Z.inj_add, IH, weight_stencil by lia.
    rewrite Nat2Z.inj_mul, Nat2Z.inj_succ, !Nat2Z.inj_add, Nat2Z.inj_mul. unfold Z.succ. change (z 1) with 1. change (z 2) with 2. ring.
  Qed.
  Lemma sum_outer k : (k <= d)%nat -> 2 * z (nsum (N - d + k) weight) = 2 * z (nsum (N - d) weight) + (2 * z d + 1) * (z k * (4 * z d - z k + 1)).
  Proof.
    induction k as [|k IH]; intros H; [rewrite Nat.add_0_r; ring|]. replace (N - d + S k)%nat with (S (N - d + k)) by lia. cbn [nsum].
    rewrite Nat2Z.inj_add, Z.mul_add_distr_l, IH, weight_outer by lia.
    rewrite Nat2Z.inj_mul, Nat2Z.inj_succ, Nat2Z.inj_sub, !Nat2Z.inj_add, !Nat2Z.inj_mul by lia.
    replace (N - d + k - (N - d))%nat with k by lia. unfold Z.succ. change (z 1) with 1. change (z 2) with 2. ring.
  Qed.
  (** the total *)
  Lemma sum_all : z (nsum N weight) = z ns * z d + (z N * (1 + 2 * z d) - (1 + z d) * z d) * (2 * z d + 1).
  Proof.
    pose proof (sum_outer d (le_n d)) as A. pose proof (sum_stencil (N - d) ltac:(lia) (le_n _)) as B. pose proof (sum_inner d (le_n d)) as C.
    replace (N - d + d)%nat with N in A by lia. rewrite Nat2Z.inj_sub in B by lia.
    apply (Z.mul_reg_l _ _ 2); [lia|]. rewrite A, B. rewrite Z.mul_add_distr_l, C. ring.
  Qed.
End Rows.
