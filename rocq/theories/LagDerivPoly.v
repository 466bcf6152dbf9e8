(** Taylor coefficients of the Lagrange polynomials; sequences of coefficients. *)
From Verif Require Import LagDerivSpec LagrangeProofs.
From Coq Require Import Lra Lia.
Open Scope R_scope.

(** ** Finite sequences of coefficients *)
Definition fin (N : nat) (a : nat -> R) : Prop := forall k, (N <= k)%nat -> a k = 0.
Definition ev (N : nat) (a : nat -> R) (h : R) : R := Rsum N (fun k => a k * h ^ k).
Definition delta (k : nat) : R := if (k =? 0)%nat then 1 else 0.
Definition shift (a : nat -> R) (k : nat) : R := match k with O => 0 | S k' => a k' end.
Definition M (d : R) (a : nat -> R) (k : nat) : R := shift a k + d * a k.

Lemma ev_ext N a b h : (forall k, (k < N)%nat -> a k = b k) -> ev N a h = ev N b h.
Proof. intros H. apply Rsum_ext. intros k Hk. now rewrite H. Qed.
Lemma ev_more N N' a h : fin N a -> (N <= N')%nat -> ev N' a h = ev N a h.
Proof.
  intros F H. induction N' as [|m IH]; [replace N with 0%nat by lia; reflexivity|].
  destruct (Nat.eq_dec N (S m)) as [->|]; [reflexivity|].
  unfold ev in *. cbn [Rsum]. rewrite IH by lia. rewrite F by lia. ring.
Qed.
Lemma ev_shift N a h : ev (S N) (shift a) h = h * ev N a h.
Proof.
  unfold ev. rewrite Rsum_first. cbn [shift pow]. rewrite <- Rsum_scal.
  rewrite (Rsum_ext _ (fun i => shift a (S i) * h ^ S i) (fun k => h * (a k * h ^ k))); [ring|].
  intros k _. cbn [shift pow]. ring.
Qed.
Lemma fin_shift N a : fin N a -> fin (S N) (shift a).
Proof. intros F [|k] H; [lia|]. apply F. lia. Qed.
Lemma fin_M N d a : fin N a -> fin (S N) (M d a).
Proof. intros F k H. unfold M. rewrite fin_shift with (N := N) by auto. rewrite F by lia. ring. Qed.
Lemma ev_M N d a h : fin N a -> ev (S N) (M d a) h = (h + d) * ev N a h.
Proof.
  intros F. transitivity (ev (S N) (shift a) h + d * ev (S N) a h).
  - unfold ev, M. rewrite <- Rsum_scal, <- Rsum_plus. apply Rsum_ext. intros k _. ring.
  - rewrite ev_shift, (ev_more N (S N)) by auto. ring.
Qed.
(** a polynomial that vanishes everywhere has no coefficients *)
Lemma ev_zero N : forall a, (forall h, ev N a h = 0) -> forall k, (k < N)%nat -> a k = 0.
Proof.
  induction N as [|N IH]; intros a H k Hk; [lia|].
  assert (L : forall k, (k < N)%nat -> a k = 0).
  { intros i Hi. assert (E : a i * (2 ^ i - 2 ^ N) = 0).
    { apply (IH (fun i => a i * (2 ^ i - 2 ^ N))); auto. intros h.
      transitivity (ev (S N) a (2 * h) - 2 ^ N * ev (S N) a h).
      - unfold ev. cbn [Rsum]. rewrite Rmult_plus_distr_l, <- Rsum_scal.
        rewrite (Rsum_ext _ (fun i0 => a i0 * (2 ^ i0 - 2 ^ N) * h ^ i0)
           (fun i0 => a i0 * (2 * h) ^ i0 - 2 ^ N * (a i0 * h ^ i0))).
        + rewrite Rsum_minus, Rpow_mult_distr. ring.
        + intros j _. rewrite Rpow_mult_distr. ring.
      - rewrite !H. ring. }
    apply Rmult_integral in E. destruct E as [|E]; auto. exfalso.
    assert (2 ^ i < 2 ^ N) by (apply Rlt_pow; [lra|auto]). lra. }
  destruct (Nat.eq_dec k N) as [->|]; [|apply L; lia].
  specialize (H 1). unfold ev in H. cbn [Rsum] in H. rewrite (Rsum_zero N) in H.
  - rewrite pow1 in H. lra.
  - intros i Hi. rewrite L by auto. ring.
Qed.
Lemma ev_inj N a b : (forall h, ev N a h = ev N b h) -> forall k, (k < N)%nat -> a k = b k.
Proof.
  intros H k Hk. assert (E : a k - b k = 0).
  { apply (ev_zero N (fun k => a k - b k)); auto. intros h. unfold ev.
    rewrite (Rsum_ext _ _ (fun k => a k * h ^ k - b k * h ^ k)) by (intros; ring).
    rewrite Rsum_minus. specialize (H h). unfold ev in H. lra. }
  lra.
Qed.
Lemma fin_inj N a b : fin N a -> fin N b -> (forall h, ev N a h = ev N b h) -> forall k, a k = b k.
Proof.
  intros Fa Fb H k. destruct (lt_dec k N) as [L|L]; [apply (ev_inj N); auto|].
  rewrite Fa, Fb by lia. reflexivity.
Qed.

(** ** Multiplication by linear factors *)
Lemma M_ext d a b : (forall k, a k = b k) -> forall k, M d a k = M d b k.
Proof. intros H [|k]; unfold M; cbn [shift]; now rewrite ?H. Qed.
Lemma M_inj d a b : d <> 0 -> (forall k, M d a k = M d b k) -> forall k, a k = b k.
Proof.
  intros Hd H k. induction k as [|k IH].
  - specialize (H 0%nat). unfold M in H; cbn [shift] in H. apply Rmult_eq_reg_l with d; lra.
  - specialize (H (S k)). unfold M in H; cbn [shift] in H. rewrite IH in H. apply Rmult_eq_reg_l with d; lra.
Qed.
Lemma M_comm d e a k : M d (M e a) k = M e (M d a) k.
Proof. unfold M. destruct k as [|[|k]]; cbn [shift]; unfold M; cbn [shift]; ring. Qed.
Lemma M_shift d a k : M d (shift a) k = shift (M d a) k.
Proof. unfold M. destruct k as [|[|k]]; cbn [shift]; ring. Qed.
Lemma M_lin d u v a b k : M d (fun k => u * a k + v * b k) k = u * M d a k + v * M d b k.
Proof. unfold M. destruct k; cbn [shift]; ring. Qed.
Lemma M_scal d u a k : M d (fun k => u * a k) k = u * M d a k.
Proof. unfold M. destruct k; cbn [shift]; ring. Qed.
Lemma M_sum d n (w : nat -> R) (a : nat -> nat -> R) k :
  M d (fun k => Rsum n (fun p => w p * a p k)) k = Rsum n (fun p => w p * M d (a p) k).
Proof.
  unfold M. destruct k; cbn [shift].
  - rewrite <- Rsum_scal, Rplus_0_l. apply Rsum_ext. intros; ring.
  - rewrite <- Rsum_scal, <- Rsum_plus. apply Rsum_ext. intros; ring.
Qed.
Definition inv (d : R) (k : nat) : R := (-1) ^ k / d ^ (S k).
Lemma M_inv d k : d <> 0 -> M d (inv d) k = delta k.
Proof.
  intros Hd. unfold M, inv, delta. destruct k as [|k]; cbn [shift Nat.eqb].
  - cbn [pow]. field. auto.
  - cbn [pow]. field. split; [apply pow_nonzero; auto|auto].
Qed.
Definition conv (a c : nat -> R) (n : nat) : R := Rsum (S n) (fun k => a k * c (n - k)%nat).
Lemma conv_M d a c n : M d (conv a c) n = conv a (M d c) n.
Proof.
  unfold M at 1. unfold conv. destruct n as [|n]; cbn [shift].
  - cbn [Rsum Nat.sub]. unfold M; cbn [shift]. ring.
  - rewrite (Rsum_ext (S (S n)) (fun k => a k * M d c (S n - k)%nat)
      (fun k => a k * shift c (S n - k)%nat + d * (a k * c (S n - k)%nat))) by (intros; unfold M; ring).
    rewrite Rsum_plus, Rsum_scal. f_equal.
    change (Rsum (S (S n)) (fun k => a k * shift c (S n - k)%nat)) with
      (Rsum (S n) (fun k => a k * shift c (S n - k)%nat) + a (S n) * shift c (S n - S n)%nat).
    rewrite Nat.sub_diag. cbn [shift]. rewrite Rmult_0_r, Rplus_0_r. apply Rsum_ext. intros k Hk.
    replace (S n - k)%nat with (S (n - k)) by lia. reflexivity.
Qed.
Lemma conv_ext a c c' n : (forall k, c k = c' k) -> conv a c n = conv a c' n.
Proof. intros H. apply Rsum_ext. intros. now rewrite H. Qed.
Lemma conv_delta a u n : conv a (fun k => u * delta k) n = u * a n.
Proof.
  unfold conv. rewrite (Rsum_single _ _ n); [|lia|].
  - rewrite Nat.sub_diag. unfold delta; cbn. ring.
  - intros k Hk N. unfold delta. destruct (Nat.eqb_spec (n - k) 0); [lia|ring].
Qed.

(** product of the factors (h + d p), p < n, not skipped *)
Fixpoint MM (d : nat -> R) (sk : nat -> bool) (n : nat) (a : nat -> R) : nat -> R :=
  match n with O => a | S n' => let a' := MM d sk n' a in if sk n' then a' else M (d n') a' end.
Lemma MM_ext d sk n : forall a b, (forall k, a k = b k) -> forall k, MM d sk n a k = MM d sk n b k.
Proof.
  induction n as [|n IH]; intros a b H k; cbn [MM]; [apply H|].
  destruct (sk n); [apply IH; auto|]. apply M_ext. intros; apply IH; auto.
Qed.
Lemma MM_sk d sk sk' n a : (forall p, (p < n)%nat -> sk p = sk' p) -> forall k, MM d sk n a k = MM d sk' n a k.
Proof.
  induction n as [|n IH]; intros H k; cbn [MM]; [reflexivity|]. rewrite <- H by lia.
  destruct (sk n); [apply IH; auto|]. apply M_ext. intros; apply IH; auto.
Qed.
Lemma MM_M d sk n e : forall a k, MM d sk n (M e a) k = M e (MM d sk n a) k.
Proof.
  induction n as [|n IH]; intros a k; cbn [MM]; [reflexivity|].
  destruct (sk n); [apply IH|]. rewrite (M_ext (d n) _ (M e (MM d sk n a))) by (intros; apply IH). apply M_comm.
Qed.
Lemma MM_take d sk n p a k : (p < n)%nat -> sk p = false ->
  MM d sk n a k = MM d (fun q => sk q || (q =? p)%nat)%bool n (M (d p) a) k.
Proof.
  revert k. induction n as [|n IH]; intros k Hp Hs; [lia|]. cbn [MM].
  destruct (Nat.eqb_spec n p) as [->|N].
  - rewrite Hs, Bool.orb_true_r. rewrite MM_M. apply M_ext. intros i. apply MM_sk.
    intros q Hq. destruct (Nat.eqb_spec q p); [lia|]. now rewrite Bool.orb_false_r.
  - rewrite Bool.orb_false_r. destruct (sk n); [apply IH; auto; lia|].
    apply M_ext. intros i. apply IH; auto; lia.
Qed.
Lemma MM_shift d sk n : forall a k, MM d sk n (shift a) k = shift (MM d sk n a) k.
Proof.
  induction n as [|n IH]; intros a k; cbn [MM]; [reflexivity|].
  destruct (sk n); [apply IH|]. rewrite (M_ext (d n) _ (shift (MM d sk n a))) by (intros; apply IH). apply M_shift.
Qed.
Lemma MM_lin d sk n u v a b k : MM d sk n (fun k => u * a k + v * b k) k = u * MM d sk n a k + v * MM d sk n b k.
Proof.
  revert k. induction n as [|n IH]; intros k; cbn [MM]; [reflexivity|].
  destruct (sk n); [apply IH|]. rewrite <- M_lin. apply M_ext. intros; apply IH.
Qed.
Lemma MM_sum d sk n m (w : nat -> R) (a : nat -> nat -> R) k :
  MM d sk n (fun k => Rsum m (fun p => w p * a p k)) k = Rsum m (fun p => w p * MM d sk n (a p) k).
Proof.
  revert k. induction n as [|n IH]; intros k; cbn [MM]; [reflexivity|].
  destruct (sk n); [apply IH|]. rewrite <- M_sum. apply M_ext. intros; apply IH.
Qed.
Lemma MM_conv d sk n a : forall c k, MM d sk n (conv a c) k = conv a (MM d sk n c) k.
Proof.
  induction n as [|n IH]; intros c k; cbn [MM]; [reflexivity|].
  destruct (sk n); [apply IH|]. rewrite (M_ext (d n) _ (conv a (MM d sk n c))) by (intros; apply IH). apply conv_M.
Qed.
Lemma MM_inj d sk n : (forall p, (p < n)%nat -> sk p = false -> d p <> 0) -> forall a b,
  (forall k, MM d sk n a k = MM d sk n b k) -> forall k, a k = b k.
Proof.
  induction n as [|n IH]; intros H a b E; cbn [MM] in E; [exact E|].
  apply IH; [auto|]. destruct (sk n) eqn:S; [exact E|]. apply (M_inj (d n)); auto.
Qed.
Lemma MM_fin d sk n N a : fin N a -> fin (N + n) (MM d sk n a).
Proof.
  intros F. induction n as [|n IH]; cbn [MM]; [now rewrite Nat.add_0_r|].
  rewrite Nat.add_succ_r. destruct (sk n); [|apply fin_M; auto]. intros k Hk. apply IH. lia.
Qed.
Lemma MM_ev d sk n N a h : fin N a ->
  ev (N + n) (MM d sk n a) h = prod_upto n (fun p => if sk p then 1 else h + d p) * ev N a h.
Proof.
  intros F. induction n as [|n IH]; cbn [MM prod_upto]; [rewrite Nat.add_0_r; ring|].
  rewrite Nat.add_succ_r. destruct (sk n).
  - rewrite (ev_more (N + n)) by (try apply MM_fin; auto). rewrite IH. ring.
  - rewrite ev_M by (apply MM_fin; auto). rewrite IH. ring.
Qed.
Lemma fin_delta : fin 1 delta.
Proof. intros [|k] H; [lia|reflexivity]. Qed.
Lemma ev_delta h : ev 1 delta h = 1.
Proof. unfold ev, delta; cbn. ring. Qed.

(** ** Taylor coefficients *)
Definition taylor (f : R -> R) (x : R) (N : nat) (t : nat -> R) : Prop :=
  fin N t /\ forall h, f (x + h) = ev N t h.

Lemma taylor_unique f x N t t' : taylor f x N t -> taylor f x N t' -> forall k, t k = t' k.
Proof. intros [F H] [F' H']. apply (fin_inj N); auto. intros h. now rewrite <- H, <- H'. Qed.

(** *** At a node *)
Section Node.
Variables (D : nat) (xs : nat -> R).
Hypothesis distinct : forall i j, (i <= D)%nat -> (j <= D)%nat -> xs i = xs j -> i = j.
Variables (w : nat -> R) (c : R).
Hypothesis c_pos : c <> 0.
Hypothesis weights : forall i, (i <= D)%nat -> w i = c * node_weight D xs i.
Variable m : nat.
Hypothesis Hm : (m <= D)%nat.
Let d p := xs m - xs p.
Let isk p := (p =? m)%nat.

Lemma d_nonzero p : (p <= D)%nat -> p <> m -> d p <> 0.
Proof. intros Hp N E. apply N, distinct; auto. unfold d in E. lra. Qed.

(** the basis polynomial as a product *)
Lemma lag_product j x : (j <= D)%nat ->
  w j * prod_upto (S D) (fun p => if (j =? p)%nat then 1 else x - xs p) = c * lagrange_poly D xs j x.
Proof.
  intros Hj. rewrite weights by auto. unfold node_weight, lagrange_poly. rewrite prod_skip_upto.
  rewrite (prod_upto_ext (S D) (fun j0 => if (j =? j0)%nat then 1 else (x - xs j0) / (xs j - xs j0))
      (fun p => (if (j =? p)%nat then 1 else x - xs p) * / (if (j =? p)%nat then 1 else xs j - xs p))).
  2:{ intros p Hp. destruct (j =? p)%nat; unfold Rdiv; [lra|reflexivity]. }
  assert (N1 : forall p, (p < S D)%nat -> (if (j =? p)%nat then 1 else xs j - xs p) <> 0).
  { intros p Hp. destruct (Nat.eqb_spec j p); [lra|]. intros C. apply n, distinct; auto; [lia|lra]. }
  rewrite prod_upto_mul, prod_upto_inv by auto. unfold Rdiv. ring.
Qed.

(** w_j h prod_{p <> m, j} (h + d_p) as a sequence *)
Definition basis_seq (j : nat) : nat -> R :=
  fun k => w j * shift (MM d (fun q => isk q || (q =? j)%nat)%bool (S D) delta) k.
Lemma basis_seq_fin j : fin (S (1 + S D)) (basis_seq j).
Proof.
  intros k Hk. unfold basis_seq. rewrite (fin_shift (1 + S D)); [ring| |lia]. apply MM_fin, fin_delta.
Qed.
Lemma prod_two j h : (j <= D)%nat -> j <> m ->
  h * prod_upto (S D) (fun p => if (isk p || (p =? j)%nat)%bool then 1 else h + d p) =
  prod_upto (S D) (fun p => if (j =? p)%nat then 1 else xs m + h - xs p).
Proof.
  intros Hj N.
  rewrite (prod_upto_take (S D) (fun p => if (j =? p)%nat then 1 else xs m + h - xs p) m) by lia.
  destruct (Nat.eqb_spec j m); [lia|]. replace (xs m + h - xs m) with h by ring. f_equal.
  apply prod_upto_ext. intros p Hp. unfold isk, d. rewrite (Nat.eqb_sym m p), (Nat.eqb_sym j p).
  destruct (p =? m)%nat, (p =? j)%nat; cbn [orb]; auto. ring.
Qed.
Lemma basis_seq_ev j h : (j <= D)%nat -> j <> m ->
  ev (S (1 + S D)) (basis_seq j) h = c * lagrange_poly D xs j (xs m + h).
Proof.
  intros Hj N. rewrite <- lag_product by auto. rewrite <- prod_two by auto.
  unfold basis_seq. transitivity (w j * ev (S (1 + S D)) (shift (MM d (fun q => isk q || (q =? j)%nat)%bool (S D) delta)) h).
  { unfold ev. rewrite <- Rsum_scal. apply Rsum_ext. intros; ring. }
  rewrite ev_shift, MM_ev by apply fin_delta. rewrite ev_delta. ring.
Qed.
(** the factor of the recurrence *)
Definition fac (r : nat) : R :=
  w m * delta r + Rsum (S D) (fun p => (if (p =? m)%nat then 0 else w p) * shift (inv (d p)) r).
Lemma fac_all k : MM d isk (S D) fac k = c * delta k.
Proof.
  assert (E : forall k, MM d isk (S D) fac k =
     w m * MM d isk (S D) delta k + Rsum (S D) (fun p => if (p =? m)%nat then 0 else basis_seq p k)).
  { intros i. unfold fac.
    rewrite (MM_ext d isk (S D) _ (fun r => w m * delta r + 1 * Rsum (S D) (fun p => (if (p =? m)%nat then 0 else w p) * shift (inv (d p)) r)))
      by (intros; ring).
    rewrite MM_lin, (MM_sum d isk (S D) (S D) (fun p => if (p =? m)%nat then 0 else w p) (fun p => shift (inv (d p)))).
    rewrite Rmult_1_l. f_equal. apply Rsum_ext. intros p Hp. unfold basis_seq.
    destruct (Nat.eqb_spec p m) as [->|N]; [ring|]. f_equal.
    rewrite MM_shift. destruct i as [|i]; cbn [shift]; [reflexivity|].
    rewrite (MM_take d isk (S D) p) by (auto; unfold isk; destruct (Nat.eqb_spec p m); auto; lia).
    apply MM_ext. intros. apply M_inv. apply d_nonzero; [lia|auto]. }
  rewrite E. set (N := S (1 + S D)).
  apply (fin_inj N (fun k => w m * MM d isk (S D) delta k + Rsum (S D) (fun p => if (p =? m)%nat then 0 else basis_seq p k)) (fun k => c * delta k)).
  - intros i Hi. rewrite (MM_fin d isk (S D) 1 delta fin_delta) by (unfold N in Hi; lia).
    rewrite Rsum_zero; [ring|]. intros p Hp. destruct (p =? m)%nat; auto. apply basis_seq_fin. exact Hi.
  - intros [|i] Hi; [unfold N in Hi; lia|]. unfold delta; cbn. ring.
  - intros h. transitivity (w m * ev N (MM d isk (S D) delta) h + Rsum (S D) (fun p => if (p =? m)%nat then 0 else ev N (basis_seq p) h)).
    { unfold ev. rewrite <- Rsum_scal.
      rewrite (Rsum_ext (S D) (fun p => if (p =? m)%nat then 0 else Rsum N (fun k0 => basis_seq p k0 * h ^ k0))
         (fun p => Rsum N (fun k0 => (if (p =? m)%nat then 0 else basis_seq p k0) * h ^ k0))).
      2:{ intros p _. destruct (p =? m)%nat; [|reflexivity]. symmetry. apply Rsum_zero. intros; ring. }
      rewrite Rsum_swap, <- Rsum_plus. apply Rsum_ext. intros i _. rewrite Rsum_scal_r. ring. }
    rewrite (ev_more (1 + S D)) by (try (apply MM_fin, fin_delta); unfold N; lia).
    rewrite MM_ev by apply fin_delta. rewrite ev_delta, Rmult_1_r.
    transitivity (c * Rsum (S D) (fun p => lagrange_poly D xs p (xs m + h))).
    2:{ rewrite lag_sum_one by auto. assert (FD : fin 1 (fun k => c * delta k)) by (intros [|i] Hi; [lia|unfold delta; cbn; ring]).
        rewrite (ev_more 1) by (auto; unfold N; lia).
        unfold ev, delta; cbn. ring. }
    rewrite (Rsum_ext (S D) (fun p => if (p =? m)%nat then 0 else ev N (basis_seq p) h)
       (fun p => c * lagrange_poly D xs p (xs m + h) - (if (p =? m)%nat then c * lagrange_poly D xs m (xs m + h) else 0))).
    2:{ intros p Hp. destruct (Nat.eqb_spec p m) as [->|Np]; [ring|]. unfold N. rewrite basis_seq_ev by (auto; lia). ring. }
    rewrite Rsum_minus, Rsum_scal, (Rsum_single (S D) (fun p => if (p =? m)%nat then c * lagrange_poly D xs m (xs m + h) else 0) m).
    2: lia. 2:{ intros p _ Np. destruct (Nat.eqb_spec p m); [lia|reflexivity]. }
    rewrite Nat.eqb_refl, <- lag_product by auto.
    rewrite (prod_upto_ext (S D) (fun p => if isk p then 1 else h + d p) (fun p => if (m =? p)%nat then 1 else xs m + h - xs p)).
    { ring. }
    intros p Hp. unfold isk, d. rewrite (Nat.eqb_sym m p). destruct (p =? m)%nat; auto. ring.
Qed.
Lemma taylor_recurrence j t : (j <= D)%nat -> j <> m -> taylor (lagrange_poly D xs j) (xs m) (S D) t ->
  forall n, conv t fac n = w j * shift (inv (d j)) n.
Proof.
  intros Hj N [F T]. apply (MM_inj d isk (S D)).
  { intros p Hp Sp. apply d_nonzero; [lia|]. unfold isk in Sp. destruct (Nat.eqb_spec p m); [discriminate|auto]. }
  intros k. rewrite MM_conv.
  rewrite (conv_ext t _ (fun k => c * delta k)) by (intros; apply fac_all). rewrite conv_delta.
  assert (E : forall k, MM d isk (S D) (fun n => w j * shift (inv (d j)) n) k = basis_seq j k).
  { intros i. rewrite (MM_ext d isk (S D) _ (fun n => w j * shift (inv (d j)) n + 0 * delta n)) by (intros; ring).
    rewrite MM_lin. unfold basis_seq. rewrite Rmult_0_l, Rplus_0_r. f_equal. rewrite MM_shift.
    destruct i as [|i]; cbn [shift]; [reflexivity|].
    rewrite (MM_take d isk (S D) j) by (try lia; unfold isk; destruct (Nat.eqb_spec j m); auto; lia).
    apply MM_ext. intros. apply M_inv. apply d_nonzero; auto. }
  rewrite E. revert k. apply (fin_inj (S (1 + S D))).
  - intros i Hi. rewrite F by lia. ring.
  - apply basis_seq_fin.
  - intros h. rewrite basis_seq_ev by auto. rewrite T. rewrite <- (ev_more (S D) (S (1 + S D)) t) by (auto; lia).
    unfold ev. rewrite <- Rsum_scal. apply Rsum_ext. intros; ring.
Qed.
(** the recurrence of the source *)
Lemma taylor_step j t n : (j <= D)%nat -> j <> m -> taylor (lagrange_poly D xs j) (xs m) (S D) t -> (0 < n)%nat ->
  t n * w m = (-1) ^ (n + 1) * w j / d j ^ n -
    Rsum (S D) (fun p => if (p =? m)%nat then 0 else
      Rsum (n - 1) (fun k => (-1) ^ (n - k) * w p * t (S k) / d p ^ (n - S k))).
Proof.
  intros Hj N T Hn. pose proof (taylor_recurrence j t Hj N T n) as R. destruct T as [F T].
  destruct n as [|n]; [lia|]. cbn [shift] in R. replace (S n - 1)%nat with n by lia.
  assert (T0 : t 0%nat = 0).
  { specialize (T 0). rewrite Rplus_0_r, lag_delta in T by auto. destruct (Nat.eqb_spec j m); [lia|].
    rewrite T. unfold ev. rewrite Rsum_first. rewrite Rsum_zero; [cbn; ring|]. intros k _. cbn [pow]. ring. }
  unfold conv in R. rewrite Rsum_first, T0, Rmult_0_l, Rplus_0_l in R. cbn [Rsum] in R.
  rewrite Nat.sub_diag in R.
  assert (F0 : fac 0 = w m).
  { unfold fac, delta. cbn [Nat.eqb shift]. rewrite Rsum_zero; [ring|]. intros; ring. }
  assert (FR : forall r, fac (S r) = Rsum (S D) (fun p => if (p =? m)%nat then 0 else (-1) ^ r * w p / d p ^ (S r))).
  { intros r. unfold fac, delta. cbn [Nat.eqb shift]. rewrite Rmult_0_r, Rplus_0_l. apply Rsum_ext. intros p _.
    destruct (p =? m)%nat; [ring|]. unfold inv, Rdiv. ring. }
  rewrite F0 in R.
  assert (S1 : Rsum n (fun i => t (S i) * fac (S n - S i)%nat) =
    Rsum (S D) (fun p => if (p =? m)%nat then 0 else Rsum n (fun k => (-1) ^ (S n - k) * w p * t (S k) / d p ^ (S n - S k)))).
  { rewrite (Rsum_ext (S D) _ (fun p => Rsum n (fun k => if (p =? m)%nat then 0 else (-1) ^ (S n - k) * w p * t (S k) / d p ^ (S n - S k)))).
    2:{ intros p _. destruct (p =? m)%nat; [|reflexivity]. symmetry. now apply Rsum_zero. }
    rewrite Rsum_swap. apply Rsum_ext. intros k Hk.
    replace (S n - S k)%nat with (S (n - S k)) by lia. rewrite FR, <- Rsum_scal. apply Rsum_ext. intros p _.
    destruct (p =? m)%nat; [ring|]. replace (S n - k)%nat with (S (S (n - S k))) by lia. cbn [pow]. unfold Rdiv. ring. }
  rewrite S1 in R. unfold inv in R. replace (S n + 1)%nat with (S (S n)) by lia.
  replace ((-1) ^ S (S n)) with ((-1) ^ n) by (cbn [pow]; ring).
  transitivity (w j * ((-1) ^ n / d j ^ S n) - Rsum (S D) (fun p => if (p =? m)%nat then 0
     else Rsum n (fun k => (-1) ^ (S n - k) * w p * t (S k) / d p ^ (S n - S k)))); [lra|].
  f_equal. unfold Rdiv. ring.
Qed.
End Node.
