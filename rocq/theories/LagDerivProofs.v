(** The derivatives of the Lagrange basis (C66). *)
From Coq Require Import ZifyBool.
From Verif Require Import LagDerivSpec LagrangeProofs LagrangeStencilProofs LagrangeEvalProofs LagDerivPoly LagDerivComb RestrictProofs QuadProofs.
From Coq Require Import Lra Lia.
Open Scope R_scope.

(** ** Taylor coefficients and derivatives *)
Definition dseq (t : nat -> R) (k : nat) : R := INR (S k) * t (S k).
Lemma fin_dseq N t : fin N t -> fin N (dseq t).
Proof. intros F k Hk. unfold dseq. rewrite F by lia. ring. Qed.
Lemma ev_deriv N t h : fin N t -> derivable_pt_lim (ev N t) h (ev N (dseq t) h).
Proof.
  intros F.
  assert (G : forall n, derivable_pt_lim (fun h => ev n t h) h (Rsum n (fun k => t k * (INR k * h ^ pred k)))).
  { induction n as [|n IH]; [apply derivable_pt_lim_const|]. unfold ev in *. cbn [Rsum].
    apply (derivable_pt_lim_plus (fun h => Rsum n (fun k => t k * h ^ k)) (fun h => t n * h ^ n)); auto.
    apply (derivable_pt_lim_scal (fun h => h ^ n)). apply derivable_pt_lim_pow. }
  replace (ev N (dseq t) h) with (Rsum N (fun k => t k * (INR k * h ^ pred k))); [apply G|].
  destruct N as [|N]; [reflexivity|]. rewrite Rsum_first. unfold ev. cbn [Rsum]. unfold dseq at 2. rewrite (F (S N)) by lia.
  cbn [pred]. change (INR 0) with 0. rewrite Rmult_0_l, !Rmult_0_r, Rmult_0_l, Rplus_0_l, Rplus_0_r. apply Rsum_ext.
  intros k _. unfold dseq. cbn [pred]. ring.
Qed.
Lemma taylor_deriv f x N t y : taylor f x N t -> derivable_pt_lim f y (ev N (dseq t) (y - x)).
Proof.
  intros [F H]. apply (derivable_pt_lim_ext' (fun u => ev N t (u - x))).
  { intros u. rewrite <- H. f_equal. ring. }
  replace (ev N (dseq t) (y - x)) with (ev N (dseq t) (y - x) * 1) by ring.
  apply (derivable_pt_lim_comp (fun u => u - x) (ev N t)).
  - replace 1 with (1 - 0) by ring. apply derivable_pt_lim_minus; [apply derivable_pt_lim_id|apply derivable_pt_lim_const].
  - now apply ev_deriv.
Qed.
Lemma taylor_nth n : forall f g x N t, taylor f x N t -> nth_derivative n f g -> g x = INR (fact n) * t n.
Proof.
  induction n as [|n IH]; intros f g x N t T (F & F0 & FS & Fn).
  - rewrite <- Fn, F0. destruct T as [FN H]. specialize (H 0). rewrite Rplus_0_r in H. rewrite H.
    destruct N as [|N]; [rewrite (FN 0%nat) by lia; cbn; ring|].
    unfold ev. rewrite Rsum_first, Rsum_zero by (intros; cbn [pow]; ring). cbn. ring.
  - assert (T' : taylor (F 1%nat) x N (dseq t)).
    { split; [apply fin_dseq; apply T|]. intros h.
      apply (uniqueness_limite (F 0%nat) (x + h)); [apply FS; lia|].
      apply (derivable_pt_lim_ext' f); [intros; now rewrite F0|].
      replace h with (x + h - x) at 2 by ring. now apply taylor_deriv. }
    rewrite (IH (F 1%nat) g x N (dseq t) T').
    + unfold dseq. change (fact (S n)) with (S n * fact n)%nat. rewrite mult_INR. ring.
    + exists (fun k => F (S k)). split; [auto|]. split; [|exact Fn]. intros k y Hk. apply FS. lia.
Qed.
Fixpoint dseqs (k : nat) (t : nat -> R) : nat -> R := match k with O => t | S k' => dseq (dseqs k' t) end.
Lemma fin_dseqs N t k : fin N t -> fin N (dseqs k t).
Proof. induction k; intros; cbn [dseqs]; auto. apply fin_dseq; auto. Qed.
Lemma taylor_exists f x N t n : taylor f x N t -> nth_derivative n f (fun y => ev N (dseqs n t) (y - x)).
Proof.
  intros T. exists (fun k y => ev N (dseqs k t) (y - x)). split; [|split; [|reflexivity]].
  - intros y. cbn [dseqs]. destruct T as [F H]. rewrite <- H. f_equal. ring.
  - intros k y _. cbn [dseqs]. apply (taylor_deriv _ x). split; [apply fin_dseqs, T|]. intros h. f_equal. ring.
Qed.
Lemma nth_derivative_unique n f g g' x N t : taylor f x N t -> nth_derivative n f g -> nth_derivative n f g' -> g x = g' x.
Proof. intros T H H'. now rewrite (taylor_nth n f g x N t T H), (taylor_nth n f g' x N t T H'). Qed.
Lemma taylor_sum n (f : nat -> R -> R) c x N (t : nat -> nat -> R) :
  (forall i, (i < n)%nat -> taylor (f i) x N (t i)) ->
  taylor (fun y => Rsum n (fun i => c i * f i y)) x N (fun k => Rsum n (fun i => c i * t i k)).
Proof.
  intros H. split.
  - intros k Hk. apply Rsum_zero. intros i Hi. destruct (H i Hi) as [F _]. rewrite F by auto. ring.
  - intros h. unfold ev. rewrite (Rsum_ext n _ (fun i => Rsum N (fun k => c i * t i k * h ^ k))).
    + rewrite Rsum_swap. apply Rsum_ext. intros k _. rewrite <- Rsum_scal_r. apply Rsum_ext. intros; ring.
    + intros i Hi. destruct (H i Hi) as [_ T]. rewrite T. unfold ev. rewrite <- Rsum_scal. apply Rsum_ext. intros; ring.
Qed.
Lemma taylor_ext f g x N t : (forall y, f y = g y) -> taylor f x N t -> taylor g x N t.
Proof. intros E [F H]. split; auto. intros h. now rewrite <- E. Qed.
(** polynomials *)
Lemma taylor_poly p x : exists t, taylor (peval p) x (length p) t.
Proof.
  induction p as [|a p (t & F & H)].
  - exists (fun _ => 0). split; [intros k _; reflexivity|]. intros h. reflexivity.
  - exists (fun k => M x t k + a * delta k). split.
    + intros k Hk. cbn [length] in Hk. rewrite (fin_M (length p) x t F k Hk). unfold delta. destruct (Nat.eqb_spec k 0); [lia|ring].
    + intros h. cbn [peval length]. rewrite H.
      transitivity (ev (S (length p)) (M x t) h + a * ev (S (length p)) delta h).
      * rewrite ev_M by auto. rewrite (ev_more 1 (S (length p)) delta) by (try apply fin_delta; lia). rewrite ev_delta. ring.
      * unfold ev. rewrite <- Rsum_scal, <- Rsum_plus. apply Rsum_ext. intros; ring.
Qed.
Lemma taylor_more f x N N' t : (N <= N')%nat -> taylor f x N t -> taylor f x N' t.
Proof. intros H [F T]. split; [intros k Hk; apply F; lia|]. intros h. rewrite T. symmetry. apply ev_more; auto. Qed.

(** ** Between the nodes *)
Lemma es_ext y z s : forall m lo, (forall r, (r < s)%nat -> y (lo + r)%nat = z (lo + r)%nat) -> es y s m lo = es z s m lo.
Proof.
  induction s as [|s IH]; intros [|m] lo H; cbn [es]; auto.
  rewrite (IH m (S lo)), (IH (S m) (S lo)).
  - specialize (H 0%nat ltac:(lia)). rewrite Nat.add_0_r in H. now rewrite H.
  - intros r Hr. specialize (H (S r) ltac:(lia)). now rewrite Nat.add_succ_r in H.
  - intros r Hr. specialize (H (S r) ltac:(lia)). now rewrite Nat.add_succ_r in H.
Qed.
Lemma es_gen y h : forall s lo, prod_upto s (fun r => 1 + h * y (lo + r)%nat) = ev (S s) (fun m => es y s m lo) h.
Proof.
  induction s as [|s IH]; intros lo; [cbn; ring|].
  rewrite prod_upto_first, Nat.add_0_r.
  rewrite (prod_upto_ext s _ (fun r => 1 + h * y (S lo + r)%nat)) by (intros; now rewrite Nat.add_succ_r).
  rewrite IH. unfold ev. rewrite (Rsum_first (S s)). cbn [es pow].
  transitivity (1 * 1 + (y lo * h * Rsum (S s) (fun k => es y s k (S lo) * h ^ k) + (Rsum (S s) (fun m => es y s m (S lo) * h ^ m) - 1))); [ring|].
  f_equal.
  assert (E : Rsum (S s) (fun m => es y s m (S lo) * h ^ m) - 1 = Rsum (S s) (fun i => es y s (S i) (S lo) * (h * h ^ i))).
  { rewrite Rsum_first. rewrite es_0. cbn [Rsum]. rewrite (es_short y s (S s)) by lia. cbn [pow]. ring. }
  rewrite E, <- Rsum_scal, <- Rsum_plus. apply Rsum_ext. intros; ring.
Qed.
Definition vn (j r : nat) : nat := if (r <? j)%nat then r else S r.
Lemma prod_skip_ranks (f : nat -> R) j D : (j <= D)%nat ->
  prod_upto (S D) (fun p => if (j =? p)%nat then 1 else f p) = prod_upto D (fun r => f (vn j r)).
Proof.
  intros Hj. assert (G : forall n, prod_upto n (fun r => f (vn j r)) =
     if (n <=? j)%nat then prod_upto n f else prod_upto (S n) (fun p => if (j =? p)%nat then 1 else f p)).
  { induction n as [|n IH]; [reflexivity|]. rewrite (eq_refl : prod_upto (S n) (fun r => f (vn j r)) = prod_upto n (fun r => f (vn j r)) * f (vn j n)).
    rewrite IH. unfold vn. destruct (Nat.ltb_spec n j), (Nat.leb_spec n j), (Nat.leb_spec (S n) j); try lia.
    - reflexivity.
    - assert (n = j) by lia. subst n. cbn [prod_upto]. rewrite Nat.eqb_refl.
      destruct (Nat.eqb_spec j (S j)); [lia|]. rewrite Rmult_1_r. f_equal. apply prod_upto_ext. intros i Hi. destruct (Nat.eqb_spec j i); [lia|reflexivity].
    - cbn [prod_upto]. destruct (Nat.eqb_spec j (S n)); [lia|]. reflexivity. }
  rewrite G. destruct (Nat.leb_spec D j); [|reflexivity]. assert (j = D) by lia. subst j. cbn [prod_upto]. rewrite Nat.eqb_refl, Rmult_1_r.
  apply prod_upto_ext. intros i Hi. destruct (Nat.eqb_spec D i); [lia|reflexivity].
Qed.
Lemma taylor_between D xs x j : (j <= D)%nat -> (forall p, (p <= D)%nat -> x <> xs p) ->
  taylor (lagrange_poly D xs j) x (S D) (fun n => lagrange_poly D xs j x * es (fun r => / (x - xs (vn j r))) D n 0).
Proof.
  intros Hj NX. split.
  - intros k Hk. rewrite es_short by lia. ring.
  - intros h. transitivity (lagrange_poly D xs j x * prod_upto D (fun r => 1 + h * / (x - xs (vn j (0 + r))))).
    + unfold lagrange_poly. rewrite !(prod_skip_ranks (fun p => _ / (xs j - xs p))) by auto. rewrite <- prod_upto_mul.
      apply prod_upto_ext. intros r Hr. cbn [Nat.add].
      assert (NZ : x - xs (vn j r) <> 0). { intros C. apply (NX (vn j r)); [unfold vn; destruct (r <? j)%nat; lia|lra]. }
      unfold Rdiv. rewrite Rmult_plus_distr_l, Rmult_1_r.
      transitivity ((x - xs (vn j r)) * / (xs j - xs (vn j r)) + h * / (xs j - xs (vn j r)) * ((x - xs (vn j r)) * / (x - xs (vn j r)))); [|ring].
      rewrite Rinv_r by auto. ring.
    + rewrite (es_gen (fun r => / (x - xs (vn j r)))). unfold ev. rewrite <- Rsum_scal. apply Rsum_ext. intros; ring.
Qed.

(** ** The tables *)
Lemma set2_eq t i j x : set2 t i j x i j = x.
Proof. unfold set2. now rewrite !Nat.eqb_refl. Qed.
Lemma set2_neq t i j x a b : (a <> i \/ b <> j) -> set2 t i j x a b = t a b.
Proof. intros H. unfold set2. destruct (Nat.eqb_spec a i), (Nat.eqb_spec b j); cbn [andb]; auto. lia. Qed.
Lemma IZR_factorial n : (n <= 20)%nat -> IZR (factorial n) = INR (fact n).
Proof. intros H. rewrite (factorial_exact n H). now rewrite INR_IZR_INZ. Qed.

(** the table holds the derivatives of the basis polynomials at [x2] *)
Definition table_of (D nd : nat) (xs : nat -> R) (x2 : R) (t : nat -> nat -> R) : Prop :=
  forall j T, (j <= D)%nat -> taylor (lagrange_poly D xs j) x2 (S D) T -> forall n, (n <= nd)%nat -> t j n = INR (fact n) * T n.

Lemma between_spec fuel D nd xs x term garbage t0 vals :
  (nd <= D)%nat -> (nd <= 20)%nat -> length garbage = S D -> 2 ^ D <= INR fuel ->
  (forall p, (p <= D)%nat -> x <> xs p) -> (forall p, (p <= D)%nat -> term (Z.of_nat p) = x - xs p) ->
  vals = map (fun i => lagrange_poly D xs i x) (seq 0 (S D)) ->
  exists t, between_table fuel D nd term garbage vals t0 = Ok t /\ table_of D nd xs x t.
Proof.
  intros H1 H20 HG HF NX HT EV.
  assert (RV : forall j, (j <= D)%nat -> rd vals (Z.of_nat j) = Ok (lagrange_poly D xs j x)).
  { intros j Hj. rewrite EV. unfold rd. destruct (Z.ltb_spec (Z.of_nat j) 0); [lia|]. rewrite Nat2Z.id.
    rewrite (nth_error_nth' _ 0) by (rewrite map_length, seq_length; lia). now rewrite map_seq_nth by lia. }
  assert (BE : forall j n, (j <= D)%nat -> (0 < n <= nd)%nat ->
     between_entry fuel D term garbage vals j n = Ok (INR (fact n) * (lagrange_poly D xs j x * es (fun r => / (x - xs (vn j r))) D n 0))).
  { intros j n Hj Hn. unfold between_entry. rewrite RV by auto. cbn [bind].
    rewrite (factor_spec D n j term ltac:(lia) fuel garbage HG HF). cbn [bind].
    rewrite (es_ext (fun r => / term (val j r)) (fun r => / (x - xs (vn j r)))).
    - rewrite IZR_factorial by lia. f_equal. ring.
    - intros r Hr. cbn [Nat.add]. unfold val. fold (vn j r). rewrite HT; [reflexivity|]. unfold vn. destruct (r <? j)%nat; lia. }
  set (good := fun (t : nat -> nat -> R) j n => t j n = INR (fact n) * (lagrange_poly D xs j x * es (fun r => / (x - xs (vn j r))) D n 0)).
  unfold between_table.
  destruct (for_res_inv (fun j t => forall j' n, (j' < j)%nat -> (n <= nd)%nat -> good t j' n) (S D)
    (fun j t => let* v := rd vals (Z.of_nat j) in
      for_res nd (fun k t => let* e := between_entry fuel D term garbage vals j (k + 1) in Ok (set2 t j (k + 1) e)) (set2 t j 0 v)) t0)
    as (t & E & P).
  - intros; lia.
  - intros j t Hj HP. rewrite RV by lia. cbn [bind].
    destruct (for_res_inv (fun k t => (forall j' n, (j' < j)%nat -> (n <= nd)%nat -> good t j' n) /\ forall n, (n <= k)%nat -> good t j n) nd
      (fun k t => let* e := between_entry fuel D term garbage vals j (k + 1) in Ok (set2 t j (k + 1) e))
      (set2 t j 0 (lagrange_poly D xs j x))) as (t' & E' & P1 & P2).
    + split.
      * intros j' n Hj' Hn. unfold good. rewrite set2_neq by lia. now apply HP.
      * intros n Hn. assert (n = 0)%nat as -> by lia. unfold good. rewrite set2_eq, es_0. cbn. ring.
    + intros k u Hk (Q1 & Q2). rewrite BE by lia. cbn [bind]. eexists. split; [reflexivity|]. split.
      * intros j' n Hj' Hn. unfold good. rewrite set2_neq by lia. now apply Q1.
      * intros n Hn. unfold good. destruct (Nat.eq_dec n (k + 1)) as [->|NE]; [apply set2_eq|]. rewrite set2_neq by lia. apply Q2. lia.
    + exists t'. split; [exact E'|]. intros j' n Hj' Hn. destruct (Nat.eq_dec j' j) as [->|NE]; [now apply P2|]. apply P1; lia.
  - exists t. split; [exact E|]. intros j T Hj HTT n Hn. rewrite (P j n) by lia.
    rewrite (taylor_unique _ _ _ _ _ HTT (taylor_between D xs x j Hj NX) n). reflexivity.
Qed.

Lemma taylor_lag D xs j x : (forall i j, (i <= D)%nat -> (j <= D)%nat -> xs i = xs j -> i = j) -> (j <= D)%nat ->
  exists T, taylor (lagrange_poly D xs j) x (S D) T.
Proof.
  intros DIS Hj. destruct (lag_poly_fun D xs j Hj) as (p & Lp & Hp). destruct (taylor_poly p x) as [t T].
  exists t. apply (taylor_more _ _ (length p)); auto. apply (taylor_ext (peval p)); auto.
Qed.
Lemma pow_neg1 k : (-1) ^ k = IZR (neg_1_pow (Z.of_nat k)).
Proof. rewrite neg_1_pow_nonneg by lia. now rewrite Nat2Z.id. Qed.
Lemma node_spec D nd xs w c m t0 : (forall i j, (i <= D)%nat -> (j <= D)%nat -> xs i = xs j -> i = j) ->
  c <> 0 -> (forall i, (i <= D)%nat -> w i = c * node_weight D xs i) -> (m <= D)%nat -> (nd <= 20)%nat ->
  table_of D nd xs (xs m) (node_table D nd w xs m t0).
Proof.
  intros DIS HC HW Hm H20.
  assert (W0 : w m <> 0).
  { rewrite HW by auto. apply Rmult_integral_contrapositive_currified; auto. unfold node_weight, Rdiv. rewrite Rmult_1_l.
    apply Rinv_neq_0_compat. rewrite prod_skip_upto. apply prod_upto_nonzero. intros i Hi. destruct (Nat.eqb_spec m i); [lra|].
    intros C. apply n, DIS; auto; [lia|lra]. }
  set (ok := fun (t : nat -> nat -> R) j n => forall T, taylor (lagrange_poly D xs j) (xs m) (S D) T -> t j n = INR (fact n) * T n).
  assert (T0 : forall j T, (j <= D)%nat -> taylor (lagrange_poly D xs j) (xs m) (S D) T -> T 0%nat = if (j =? m)%nat then 1 else 0).
  { intros j T Hj [F HT]. specialize (HT 0). rewrite Rplus_0_r, lag_delta in HT by auto. rewrite HT.
    unfold ev. rewrite Rsum_first, Rsum_zero by (intros; cbn [pow]; ring). cbn. ring. }
  assert (ENTRY : forall j n t, (j <= D)%nat -> j <> m -> (0 < n <= nd)%nat -> (forall k, (k < n)%nat -> ok t j k) ->
     forall T, taylor (lagrange_poly D xs j) (xs m) (S D) T -> node_entry D w xs m j n t = INR (fact n) * T n).
  { intros j n t Hj NE Hn HK T HT. unfold node_entry.
    pose proof (taylor_step D xs DIS w c HW m Hm j T n Hj NE HT ltac:(lia)) as ST. cbv zeta in ST.
    set (body := fun (p : nat) (d : R) => _).
    assert (EB : forall p d, body p d = d - (if (p =? m)%nat then 0 else
       Rsum (n - 1) (fun k => (-1) ^ (n - k) * w p * T (S k) / (xs m - xs p) ^ (n - S k)))).
    { intros p d. unfold body. destruct (p =? m)%nat; [ring|]. unfold for_from1.
      transitivity (for_loop (n - 1) (fun k d => d + - ((-1) ^ (n - k) * w p * T (S k) / (xs m - xs p) ^ (n - S k))) d).
      - assert (FE : forall N (f g : nat -> R -> R) (a : R), (forall k d, (k < N)%nat -> f k d = g k d) -> for_loop N f a = for_loop N g a).
        { induction N; intros f g a HE; [reflexivity|]. cbn [for_loop]. rewrite HE by lia. f_equal. apply IHN. intros; apply HE; lia. }
        apply FE. intros k e Hk. unfold Rminus. f_equal. f_equal. rewrite pow_neg1.
        rewrite (HK (k + 1)%nat ltac:(lia) T HT). rewrite IZR_factorial by lia. pose proof (INR_fact_neq_0 (k + 1)).
        replace (k + 1)%nat with (S k) in * by lia. replace (n + 1 - S k)%nat with (n - k)%nat by lia.
        unfold Rdiv. transitivity (IZR (neg_1_pow (Z.of_nat (n - k))) * w p * T (S k) * / (xs m + - xs p) ^ (n - S k) * (INR (fact (S k)) * / INR (fact (S k)))); [ring|].
        rewrite Rinv_r by auto. ring.
      - rewrite for_loop_acc, Rsum_opp. ring. }
    assert (EL : forall N d, for_loop N body d = d - Rsum N (fun p => if (p =? m)%nat then 0 else
       Rsum (n - 1) (fun k => (-1) ^ (n - k) * w p * T (S k) / (xs m - xs p) ^ (n - S k)))).
    { induction N; intros d; cbn [for_loop Rsum]; [ring|]. rewrite EB, IHN. ring. }
    rewrite EL, <- pow_neg1, <- ST, IZR_factorial by lia. field. exact W0. }
  unfold node_table.
  match goal with |- context [for_loop (S D) ?b t0] => set (body1 := b) end.
  assert (P1 : forall j n, (j < S D)%nat -> (n <= nd)%nat -> (j <> m \/ n = 0%nat) -> ok (for_loop (S D) body1 t0) j n).
  { apply (for_loop_inv (fun N t => forall j n, (j < N)%nat -> (n <= nd)%nat -> (j <> m \/ n = 0%nat) -> ok t j n)); [intros; lia|].
    intros j t Hj HP. unfold body1.
    assert (Z0 : ok (set2 t j 0 (if (j =? m)%nat then 1 else 0)) j 0%nat).
    { intros T HT. rewrite set2_eq, (T0 j T) by (auto; lia). cbn. ring. }
    destruct (Nat.eqb_spec j m) as [E|NE].
    - intros j' n Hj' Hn HO. destruct (Nat.eq_dec j' j) as [->|NJ].
      + destruct HO as [HO| ->]; [congruence|exact Z0].
      + intros T HT. rewrite set2_neq by lia. apply (HP j' n); auto. lia.
    - unfold for_from1.
      set (body2 := fun (k : nat) (s : nat -> nat -> R) => set2 s j (k + 1) (node_entry D w xs m j (k + 1) s)).
      set (t1 := set2 t j 0 0) in *.
      assert (Q : (forall j' n, (j' < j)%nat -> (n <= nd)%nat -> (j' <> m \/ n = 0%nat) -> ok (for_loop nd body2 t1) j' n) /\
                  (forall n, (n < S nd)%nat -> ok (for_loop nd body2 t1) j n)).
      { apply (for_loop_inv (fun N s => (forall j' n, (j' < j)%nat -> (n <= nd)%nat -> (j' <> m \/ n = 0%nat) -> ok s j' n) /\
           (forall n, (n < S N)%nat -> ok s j n))).
        - split.
          + intros j' n Hj' Hn HO T HT. unfold t1. rewrite set2_neq by lia. now apply HP.
          + intros n Hn. assert (n = 0)%nat as -> by lia. exact Z0.
        - intros k s Hk (Q1 & Q2). unfold body2. split.
          + intros j' n Hj' Hn HO T HT. rewrite set2_neq by lia. now apply Q1.
          + intros n Hn T HT. destruct (Nat.eq_dec n (k + 1)) as [->|NN].
            * rewrite set2_eq. apply ENTRY; auto; try lia. intros k' Hk'. apply Q2. lia.
            * rewrite set2_neq by lia. apply Q2; auto. lia. }
      destruct Q as [Q1 Q2]. intros j' n Hj' Hn HO. destruct (Nat.eq_dec j' j) as [->|NJ]; [apply Q2; lia|]. apply Q1; auto. lia. }
  set (t1 := for_loop (S D) body1 t0) in *.
  match goal with |- context [for_from1 nd ?b t1] => set (body3 := b) end.
  intros j T Hj HT n Hn. revert T HT. unfold for_from1 at 1.
  assert (P2 : (forall j n, (j <= D)%nat -> (n <= nd)%nat -> (j <> m \/ n = 0%nat) -> ok (for_loop nd (fun k s => body3 (k + 1)%nat s) t1) j n) /\
               (forall n, (0 < n < S nd)%nat -> ok (for_loop nd (fun k s => body3 (k + 1)%nat s) t1) m n)).
  { apply (for_loop_inv (fun N s => (forall j n, (j <= D)%nat -> (n <= nd)%nat -> (j <> m \/ n = 0%nat) -> ok s j n) /\
      (forall n, (0 < n < S N)%nat -> ok s m n))).
    - split; [|intros; lia]. intros j' n' Hj' Hn' HO. apply P1; auto; lia.
    - intros k s Hk (Q1 & Q2). unfold body3. set (nn := (k + 1)%nat). assert (Nn : nn = (k + 1)%nat) by reflexivity.
      set (s0 := set2 s m nn 0).
      set (s' := for_loop (S D) _ s0).
      assert (OTH : (forall a b, (a <> m \/ b <> nn) -> s' a b = s a b) /\
                    s' m nn = - Rsum (S D) (fun i => if (i =? m)%nat then 0 else s i nn)).
      { unfold s'. apply (for_loop_inv (fun N u => (forall a b, (a <> m \/ b <> nn) -> u a b = s a b) /\
           u m nn = - Rsum N (fun i => if (i =? m)%nat then 0 else s i nn))).
        - split; [intros a b H; unfold s0; now rewrite set2_neq|]. unfold s0. rewrite set2_eq. cbn. ring.
        - intros i u Hi (U1 & U2). cbn [Rsum]. destruct (Nat.eqb_spec i m) as [->|NI].
          + split; auto. rewrite U2. ring.
          + split; [intros a b H; rewrite set2_neq; auto|]. rewrite set2_eq, U2, (U1 i nn) by auto. ring. }
      destruct OTH as [O1 O2]. split.
      + intros j' n' Hj' Hn' HO T HT. rewrite O1 by lia. now apply Q1.
      + intros n' Hn' T HT. destruct (Nat.eq_dec n' nn) as [->|NN].
        * rewrite O2.
          assert (EX : exists TT : nat -> nat -> R, forall i, (i < S D)%nat -> taylor (lagrange_poly D xs i) (xs m) (S D) (TT i)).
          { clear -DIS. assert (G : forall N, (N <= S D)%nat -> exists TT : nat -> nat -> R, forall i, (i < N)%nat -> taylor (lagrange_poly D xs i) (xs m) (S D) (TT i)).
            { induction N; intros HN; [exists (fun _ _ => 0); intros; lia|]. destruct IHN as [TT H]; [lia|].
              destruct (taylor_lag D xs N (xs m) DIS ltac:(lia)) as [T HT].
              exists (fun i => if (i =? N)%nat then T else TT i). intros i Hi. destruct (Nat.eqb_spec i N); [subst; auto|apply H; lia]. }
            apply G. lia. }
          destruct EX as [TT HTT].
          assert (SUM : Rsum (S D) (fun i => TT i nn) = 0).
          { pose proof (taylor_sum (S D) (lagrange_poly D xs) (fun _ => 1) (xs m) (S D) TT HTT) as TS.
            assert (TC : taylor (fun y => Rsum (S D) (fun i => 1 * lagrange_poly D xs i y)) (xs m) (S D) delta).
            { split; [intros q Hq; unfold delta; destruct (Nat.eqb_spec q 0); [lia|reflexivity]|].
              intros h. rewrite (ev_more 1 (S D) delta) by (try apply fin_delta; lia). rewrite ev_delta.
              rewrite (Rsum_ext _ _ (fun i => lagrange_poly D xs i (xs m + h))) by (intros; ring). now apply lag_sum_one. }
            pose proof (taylor_unique _ _ _ _ _ TS TC nn) as U. cbv beta in U.
            rewrite (Rsum_ext _ _ (fun i => TT i nn)) in U by (intros; ring). rewrite U. unfold delta.
            destruct (Nat.eqb_spec nn 0); [lia|reflexivity]. }
          assert (ES : Rsum (S D) (fun i => if (i =? m)%nat then 0 else s i nn) = Rsum (S D) (fun i => INR (fact nn) * TT i nn) - INR (fact nn) * TT m nn).
          { rewrite (Rsum_ext _ (fun i => if (i =? m)%nat then 0 else s i nn)
               (fun i => INR (fact nn) * TT i nn - (if (i =? m)%nat then INR (fact nn) * TT m nn else 0))).
            - rewrite Rsum_minus. f_equal. rewrite (Rsum_single (S D) _ m); [now rewrite Nat.eqb_refl|lia|]. intros i _ NI. destruct (Nat.eqb_spec i m); [lia|reflexivity].
            - intros i Hi. destruct (Nat.eqb_spec i m) as [->|NI]; [ring|]. rewrite (Q1 i nn ltac:(lia) ltac:(lia) ltac:(auto) (TT i)) by (apply HTT; lia). ring. }
          rewrite ES, Rsum_scal, SUM. rewrite (taylor_unique _ _ _ _ _ HT (HTT m ltac:(lia)) nn). ring.
        * rewrite O1 by lia. apply Q2; auto. lia. }
  destruct P2 as [P2 P3]. destruct (Nat.eq_dec j m) as [->|NJ].
  - destruct n as [|n]; [apply P2; auto|apply P3; lia].
  - apply P2; auto.
Qed.
