(** The loop over the combinations computes the elementary symmetric function. *)
From Verif Require Import LagDerivSpec LagrangeProofs.
From Coq Require Import Lra Lia ZifyBool.
Open Scope R_scope.

(** [es y s m lo]: sum over the m-subsets of lo, ..., lo + s - 1 of the products of y *)
Fixpoint es (y : nat -> R) (s m lo : nat) : R :=
  match m with
  | O => 1
  | S m' => match s with O => 0 | S s' => y lo * es y s' m' (S lo) + es y s' m (S lo) end
  end.
Lemma es_0 y s lo : es y s 0 lo = 1.
Proof. destruct s; reflexivity. Qed.
Lemma es_short y : forall s m lo, (s < m)%nat -> es y s m lo = 0.
Proof.
  induction s as [|s IH]; intros m lo H; destruct m as [|m]; try lia; cbn [es]; [reflexivity|].
  rewrite !IH by lia. ring.
Qed.
Lemma es_nonneg y : (forall r, 0 <= y r) -> forall s m lo, 0 <= es y s m lo.
Proof.
  intros H. induction s as [|s IH]; intros m lo; destruct m as [|m]; cbn [es]; try lra.
  apply Rplus_le_le_0_compat; auto. apply Rmult_le_pos; auto.
Qed.
Lemma es_pow2 : forall s m lo, es (fun _ => 1) s m lo <= 2 ^ s.
Proof.
  induction s as [|s IH]; intros m lo; destruct m as [|m]; cbn [es pow]; try lra.
  - pose proof (pow_lt 2 s ltac:(lra)). pose proof (IH 0%nat lo). rewrite es_0 in H0. lra.
  - pose proof (IH m (S lo)). pose proof (IH (S m) (S lo)). lra.
Qed.
(** first combination and the later ones *)
Lemma prod_upto_first n f : prod_upto (S n) f = f 0%nat * prod_upto n (fun i => f (S i)).
Proof. induction n as [|n IH]; [cbn; ring|]. cbn [prod_upto] in *. rewrite IH. ring. Qed.
Lemma es_first y : forall m s q, (0 < m)%nat -> (m <= s)%nat ->
  es y s m q = prod_upto m (fun l => y (q + l)%nat) +
    Rsum m (fun k => prod_upto k (fun l => y (q + l)%nat) * es y (s - S k) (m - k) (q + S k)).
Proof.
  induction m as [|m IH]; intros s q H1 H2; [lia|]. destruct s as [|s]; [lia|]. cbn [es].
  destruct m as [|m].
  - rewrite es_0. cbn [Rsum prod_upto Nat.sub]. rewrite Nat.sub_0_r, Nat.add_0_r, Nat.add_1_r. ring.
  - rewrite (IH s (S q)) by lia.
    rewrite (Rsum_first (S m)), (prod_upto_first (S m)). rewrite Nat.add_0_r. cbn [prod_upto].
    replace (S s - 1)%nat with s by lia. rewrite Nat.sub_0_r, Nat.add_1_r, Rmult_1_l.
    rewrite Rmult_plus_distr_l, <- Rsum_scal.
    assert (P : forall k, prod_upto k (fun l => y (S q + l)%nat) = prod_upto k (fun i => y (q + S i)%nat)).
    { intros k. apply prod_upto_ext. intros i _. f_equal. lia. }
    rewrite <- !Rplus_assoc.
    rewrite (Rsum_ext (S m) (fun i => y q * (prod_upto i (fun l => y (S q + l)%nat) * es y (s - S i) (S m - i) (S q + S i)))
       (fun i => prod_upto (S i) (fun l => y (q + l)%nat) * es y (S s - S (S i)) (S (S m) - S i) (q + S (S i)))).
    2:{ intros k Hk. rewrite P, (prod_upto_first k (fun l => y (q + l)%nat)), Nat.add_0_r.
        replace (S s - S (S k))%nat with (s - S k)%nat by lia.
        replace (S (S m) - S k)%nat with (S m - k)%nat by lia. replace (S q + S k)%nat with (q + S (S k))%nat by lia. ring. }
    change (prod_upto m (fun l => y (S q + l)%nat) * y (S q + m)%nat) with (prod_upto (S m) (fun l => y (S q + l)%nat)).
    rewrite P. cbn [prod_upto]. ring.
Qed.

Lemma wr_ex {A} (b : list A) i x : (0 <= i < Z.of_nat (length b))%Z -> exists b', wr b i x = Ok b'.
Proof. intros H. eexists. now apply wr_ok. Qed.
(** ** The array holds the values of increasing ranks *)
Definition val (j r : nat) : Z := Z.of_nat (if (r <? j)%nat then r else S r).
Lemma val_next j r : skip (Z.of_nat j) (val j r + 1) = val j (S r).
Proof. unfold skip, val. destruct (Nat.ltb_spec r j), (Nat.ltb_spec (S r) j); match goal with |- context [(?a =? ?b)%Z] => destruct (Z.eqb_spec a b) end; lia. Qed.
Lemma val_zero j : skip (Z.of_nat j) (-1 + 1) = val j 0.
Proof. unfold skip, val. destruct (Nat.ltb_spec 0 j); match goal with |- context [(?a =? ?b)%Z] => destruct (Z.eqb_spec a b) end; lia. Qed.
Lemma val_max D n j i : (i < n)%nat -> (n <= D)%nat -> comb_max (S D) n (Z.of_nat j) i = val j (D - n + i).
Proof. intros H1 H2. unfold comb_max, val. destruct (Nat.ltb_spec (D - n + i) j); match goal with |- context [(?a <=? ?b)%Z] => destruct (Z.leb_spec a b) end; lia. Qed.
Lemma val_inj j r r' : val j r = val j r' -> r = r'.
Proof. unfold val. destruct (Nat.ltb_spec r j), (Nat.ltb_spec r' j); lia. Qed.

Section Loop.
Variables (D n j : nat) (term : Z -> R).
Hypothesis Hn : (0 < n <= D)%nat.
Notation y := (fun r => / term (val j r)).
Notation zj := (Z.of_nat j).
Notation nb := (S D).

Lemma tail_spec : forall m i cs q, (i + m <= length cs)%nat -> (0 < i)%nat -> rd cs (Z.of_nat i - 1) = Ok (val j q) ->
  exists cs', comb_tail zj m i cs = Ok cs' /\ length cs' = length cs /\
    (forall k, (k < i)%nat -> rd cs' (Z.of_nat k) = rd cs (Z.of_nat k)) /\
    (forall l, (l < m)%nat -> rd cs' (Z.of_nat (i + l)) = Ok (val j (q + S l))).
Proof.
  induction m as [|m IH]; intros i cs q Hl Hi Hq; cbn [comb_tail].
  - exists cs. split; [reflexivity|]. split; [reflexivity|]. split; [auto|intros; lia].
  - rewrite Hq. cbn [bind]. destruct (wr_ex cs (Z.of_nat i) (skip zj (val j q + 1)) ltac:(lia)) as [cs1 E].
    rewrite E. cbn [bind]. pose proof (wr_length _ _ _ _ E) as L1.
    destruct (IH (S i) cs1 (S q)) as (cs' & E' & L' & A & B).
    + lia.
    + lia.
    + replace (Z.of_nat (S i) - 1)%Z with (Z.of_nat i) by lia. rewrite (rd_wr_eq _ _ _ _ E). now rewrite val_next.
    + exists cs'. split; [exact E'|]. split; [lia|]. split.
      * intros k Hk. rewrite A by lia. apply (rd_wr_neq _ _ _ _ _ E). lia.
      * intros l Hl'. destruct l as [|l].
        -- rewrite Nat.add_0_r, A by lia. rewrite (rd_wr_eq _ _ _ _ E), val_next. do 2 f_equal. lia.
        -- replace (i + S l)%nat with (S i + l)%nat by lia. rewrite B by lia. do 2 f_equal. lia.
Qed.
(** the state at the top of the loop *)
Definition state (cs : list Z) (i : nat) (r : nat -> nat) (q : nat) : Prop :=
  length cs = nb /\ (i < n)%nat /\ (forall k, (k < i)%nat -> rd cs (Z.of_nat k) = Ok (val j (r k)) /\ (r k <= D - n + k)%nat) /\
  (exists c, rd cs (Z.of_nat i) = Ok c /\ skip zj (c + 1) = val j q) /\ (q + (n - i) <= D)%nat.
Definition rest (y : nat -> R) (p : nat) (r : nat -> nat) : R :=
  Rsum p (fun k => prod_upto k (fun l => y (r l)) * es y (D - S (r k)) (n - k) (S (r k))).
Definition todo (y : nat -> R) (i : nat) (r : nat -> nat) (q : nat) : R :=
  rest y i r + prod_upto i (fun l => y (r l)) * es y (D - q) (n - i) q.
Definition extend (i : nat) (r : nat -> nat) (q k : nat) : nat := if (k <? i)%nat then r k else (q + (k - i))%nat.

Lemma next_spec cs i r q : state cs i r q ->
  exists cs', comb_next zj n i cs = Ok cs' /\ length cs' = nb /\
    forall k, (k < n)%nat -> rd cs' (Z.of_nat k) = Ok (val j (extend i r q k)) /\ (extend i r q k <= D - n + k)%nat.
Proof.
  intros (L & Hi & Hr & (c & Ec & Eq) & Hq). unfold comb_next. rewrite Ec. cbn [bind].
  destruct (wr_ex cs (Z.of_nat i) (skip zj (c + 1)) ltac:(lia)) as [cs1 E]. rewrite E. cbn [bind].
  pose proof (wr_length _ _ _ _ E) as L1.
  destruct (tail_spec (n - (i + 1)) (i + 1) cs1 q) as (cs' & E' & L' & A & B).
  - lia.
  - lia.
  - replace (Z.of_nat (i + 1) - 1)%Z with (Z.of_nat i) by lia. rewrite (rd_wr_eq _ _ _ _ E). now rewrite Eq.
  - exists cs'. split; [exact E'|]. split; [lia|]. intros k Hk. unfold extend.
    destruct (Nat.ltb_spec k i) as [H|H].
    + destruct (Hr k H) as [V W]. split; [|exact W]. rewrite A by lia. rewrite <- V. apply (rd_wr_neq _ _ _ _ _ E). lia.
    + split; [|lia]. destruct (Nat.eq_dec k i) as [->|N].
      * rewrite A by lia. rewrite (rd_wr_eq _ _ _ _ E), Eq. do 2 f_equal. lia.
      * replace k with (i + 1 + (k - i - 1))%nat at 1 by lia. rewrite B by lia. do 2 f_equal. lia.
Qed.
Lemma divisor_spec cs r : forall m, (m <= n)%nat ->
  (forall k, (k < n)%nat -> rd cs (Z.of_nat k) = Ok (val j (r k))) ->
  exists d, comb_divisor term m cs = Ok d /\ / d = prod_upto m (fun l => y (r l)).
Proof.
  induction m as [|m IH]; intros Hm H; cbn [comb_divisor prod_upto].
  - exists 1. split; [reflexivity|field].
  - destruct (IH ltac:(lia) H) as (d & E & V). rewrite E. cbn [bind]. rewrite H by lia. cbn [bind].
    eexists. split; [reflexivity|]. rewrite Rinv_mult, V. reflexivity.
Qed.
Lemma back_spec cs r : forall p, (p <= n)%nat ->
  (forall k, (k < n)%nat -> rd cs (Z.of_nat k) = Ok (val j (r k)) /\ (r k <= D - n + k)%nat) ->
  exists p', comb_back nb n zj p cs = Ok p' /\ (p' <= p)%nat /\
    (forall y, rest y p r = rest y p' r) /\ (forall i, p' = S i -> (S (r i) + (n - i) <= D)%nat).
Proof.
  induction p as [|p IH]; intros Hp H; cbn [comb_back].
  - exists 0%nat. split; [reflexivity|]. split; [lia|]. split; [auto|intros; discriminate].
  - destruct (H p ltac:(lia)) as [V W]. rewrite V. cbn [bind]. rewrite val_max by lia.
    destruct (Z.eqb_spec (val j (r p)) (val j (D - n + p))) as [E|E].
    + apply val_inj in E. destruct (IH ltac:(lia) H) as (p' & E' & L' & R' & S').
      exists p'. split; [exact E'|]. split; [lia|]. split; [|exact S'].
      intros z. rewrite <- R'. unfold rest. cbn [Rsum]. rewrite (es_short z (D - S (r p)) (n - p)) by lia. ring.
    + exists (S p). split; [reflexivity|]. split; [lia|]. split; [auto|].
      intros i [= <-]. assert (r p <> (D - n + p)%nat) by congruence. lia.
Qed.
Lemma prod_extend (z : nat -> R) i r q k :
  prod_upto k (fun l => z (extend i r q l)) =
  if (k <=? i)%nat then prod_upto k (fun l => z (r l)) else prod_upto i (fun l => z (r l)) * prod_upto (k - i) (fun l => z (q + l)%nat).
Proof.
  induction k as [|k IH]; [reflexivity|]. cbn [prod_upto]. rewrite IH. unfold extend.
  destruct (Nat.leb_spec k i), (Nat.leb_spec (S k) i), (Nat.ltb_spec k i); try lia.
  - reflexivity.
  - assert (k = i) by lia. subst. rewrite !Nat.sub_diag. replace (S i - i)%nat with 1%nat by lia. cbn [prod_upto].
    rewrite Nat.add_0_r. ring.
  - replace (S k - i)%nat with (S (k - i)) by lia. cbn [prod_upto]. ring.
Qed.
Lemma todo_step (z : nat -> R) i r q : (i < n)%nat -> (q + (n - i) <= D)%nat ->
  todo z i r q = prod_upto n (fun l => z (extend i r q l)) + rest z n (extend i r q).
Proof.
  intros Hi Hq. unfold todo. rewrite (es_first z (n - i) (D - q) q) by lia.
  rewrite prod_extend. destruct (Nat.leb_spec n i); [lia|].
  assert (R1 : rest z n (extend i r q) = rest z i r +
     Rsum (n - i) (fun k => prod_upto i (fun l => z (r l)) * (prod_upto k (fun l => z (q + l)%nat) * es z (D - q - S k) (n - i - k) (q + S k)))).
  { unfold rest. replace n with (i + (n - i))%nat at 1 by lia. rewrite Rsum_app. f_equal; apply Rsum_ext.
    - intros k Hk. rewrite prod_extend. destruct (Nat.leb_spec k i); [|lia]. unfold extend. destruct (Nat.ltb_spec k i); [|lia]. reflexivity.
    - intros k Hk. rewrite prod_extend. unfold extend. destruct (Nat.ltb_spec (i + k) i); [lia|].
      replace (i + k - i)%nat with k by lia. replace (n - (i + k))%nat with (n - i - k)%nat by lia.
      replace (D - S (q + k))%nat with (D - q - S k)%nat by lia. replace (S (q + k)) with (q + S k)%nat by lia.
      destruct (Nat.leb_spec (i + k) i) as [Hk0|Hk0].
      + assert (k = 0)%nat as -> by lia. cbn [prod_upto]. rewrite Nat.add_0_r. ring.
      + ring. }
  rewrite R1, Rsum_scal. ring.
Qed.

Lemma todo_nonneg z i r q : (forall k, 0 <= z k) -> 0 <= todo z i r q.
Proof.
  intros H. assert (P : forall k (f : nat -> nat), 0 <= prod_upto k (fun l => z (f l))).
  { induction k; intros; cbn [prod_upto]; [lra|]. apply Rmult_le_pos; auto. }
  unfold todo, rest. apply Rplus_le_le_0_compat.
  - apply Rsum_nonneg. intros k _. apply Rmult_le_pos; [apply P|apply es_nonneg; auto].
  - apply Rmult_le_pos; [apply P|apply es_nonneg; auto].
Qed.
Lemma loop_spec : forall fuel cs i r q factor, state cs i r q -> todo (fun _ => 1) i r q <= INR fuel ->
  comb_loop fuel nb n zj term (S i) cs factor = Ok (factor + todo y i r q).
Proof.
  induction fuel as [|fuel IH]; intros cs i r q factor ST HF.
  - exfalso. destruct ST as (_ & Hi & _ & _ & Hq). rewrite todo_step in HF by auto. cbn [INR] in HF.
    assert (1 <= prod_upto n (fun _ : nat => 1)) by (right; symmetry; now apply prod_upto_one).
    assert (0 <= rest (fun _ => 1) n (extend i r q)).
    { unfold rest. apply Rsum_nonneg. intros k _. rewrite prod_upto_one by auto. rewrite Rmult_1_l. apply es_nonneg. intros; lra. }
    lra.
  - cbn [comb_loop]. pose proof ST as (_ & Hi & _ & _ & Hq).
    destruct (next_spec cs i r q ST) as (cs' & E1 & L1 & V). rewrite E1. cbn [bind].
    destruct (divisor_spec cs' (extend i r q) n ltac:(lia)) as (d & E2 & V2); [intros; now apply V|]. rewrite E2. cbn [bind].
    destruct (back_spec cs' (extend i r q) n ltac:(lia) V) as (p' & E3 & L3 & R3 & S3). rewrite E3. cbn [bind].
    rewrite (todo_step y) by auto. rewrite (todo_step (fun _ => 1)) in HF by auto.
    rewrite (prod_upto_one n (fun _ : nat => 1)) in HF by auto. rewrite R3 in HF.
    unfold Rdiv. rewrite V2, R3, Rmult_1_l.
    destruct p' as [|i'].
    + destruct fuel; cbn [comb_loop]; unfold rest; cbn [Rsum]; f_equal; ring.
    + assert (RT : forall z, rest z (S i') (extend i r q) = todo z i' (extend i r q) (S (extend i r q i'))) by (intros; reflexivity).
      rewrite (IH cs' i' (extend i r q) (S (extend i r q i'))).
      * rewrite RT. f_equal. ring.
      * split; [exact L1|]. split; [lia|]. split; [intros; apply V; lia|]. split; [|apply S3; reflexivity].
        exists (val j (extend i r q i')). split; [apply V; lia|]. apply val_next.
      * rewrite RT, S_INR in HF. lra.
Qed.

Lemma zero_spec : forall m i cs, (i + m <= length cs)%nat ->
  exists cs', comb_zero m i cs = Ok cs' /\ length cs' = length cs /\ (forall k, (k < i)%nat -> rd cs' (Z.of_nat k) = rd cs (Z.of_nat k)).
Proof.
  induction m as [|m IH]; intros i cs H; cbn [comb_zero].
  - exists cs. auto.
  - destruct (wr_ex cs (Z.of_nat i) 0%Z ltac:(lia)) as [cs1 E]. rewrite E. cbn [bind].
    pose proof (wr_length _ _ _ _ E) as L1. destruct (IH (S i) cs1 ltac:(lia)) as (cs' & E' & L' & A).
    exists cs'. split; [exact E'|]. split; [lia|]. intros k Hk. rewrite A by lia. apply (rd_wr_neq _ _ _ _ _ E). lia.
Qed.
Lemma factor_spec fuel garbage : length garbage = nb -> 2 ^ D <= INR fuel ->
  comb_factor fuel nb n zj term garbage = Ok (es y D n 0).
Proof.
  intros L HF. unfold comb_factor. destruct (wr_ex garbage 0 (-1)%Z ltac:(lia)) as [c1 E1]. rewrite E1. cbn [bind].
  pose proof (wr_length _ _ _ _ E1) as L1.
  destruct (zero_spec (n - 1) 1 c1 ltac:(lia)) as (c2 & E2 & L2 & V2). rewrite E2. cbn [bind].
  rewrite (loop_spec fuel c2 0 (fun _ => 0%nat) 0).
  - unfold todo, rest. cbn [Rsum prod_upto]. rewrite !Nat.sub_0_r. f_equal. ring.
  - split; [lia|]. split; [lia|]. split; [intros; lia|]. split; [|lia].
    exists (-1)%Z. split; [|apply val_zero]. rewrite (V2 0%nat) by lia. apply (rd_wr_eq _ _ _ _ E1).
  - unfold todo, rest. cbn [Rsum prod_upto]. rewrite !Nat.sub_0_r. pose proof (es_pow2 D n 0). lra.
Qed.
End Loop.
