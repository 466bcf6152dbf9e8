From Verif Require Import QuadModel QuadSpec.
From Coq Require Import ZifyBool.
Open Scope R_scope.
Local Opaque Nat.div Nat.modulo.

(** ** Buffers seen as functions *)
Definition shows (N : nat) (c : list R) (g : nat -> R) : Prop :=
  length c = N /\ forall k, (k < N)%nat -> nth k c 0 = g k.

Lemma shows_refl c : shows (length c) c (fun k => nth k c 0).
Proof. split; auto. Qed.

Lemma rd_shows N c g i : shows N c g -> (0 <= i < Z.of_nat N)%Z -> rd c i = Ok (g (Z.to_nat i)).
Proof.
  intros [L H] Hi. unfold rd. destruct (Z.ltb_spec i 0); [lia|].
  rewrite (nth_error_nth' c 0) by lia. rewrite H by lia. reflexivity.
Qed.

Lemma nth_replace (c : list R) i v k :
  (i < length c)%nat -> nth k (replace_nth c i v) 0 = if (k =? i)%nat then v else nth k c 0.
Proof.
  revert i k; induction c as [|a c IH]; intros [|i] [|k] H; simpl in *; try lia; auto.
  rewrite IH by lia. reflexivity.
Qed.

Lemma wr_shows N c g i v : shows N c g -> (0 <= i < Z.of_nat N)%Z ->
  exists c', wr c i v = Ok c' /\ shows N c' (upd g (Z.to_nat i) v).
Proof.
  intros [L H] Hi. unfold wr.
  destruct ((i <? 0) || (Z.of_nat (length c) <=? i))%Z eqn:E; [lia|].
  eexists; split; [reflexivity|]. split; [rewrite replace_nth_length; auto|].
  intros k Hk. rewrite nth_replace by lia. unfold upd.
  destruct (Nat.eqb_spec k (Z.to_nat i)); subst; auto.
Qed.

Lemma add_shows N c g i v : shows N c g -> (0 <= i < Z.of_nat N)%Z ->
  exists c', add_at c i v = Ok c' /\ shows N c' (upd g (Z.to_nat i) (g (Z.to_nat i) + v)).
Proof.
  intros H Hi. unfold add_at. rewrite (rd_shows _ _ _ _ H Hi). simpl. apply wr_shows; auto.
Qed.

Lemma for_res_inv {S} (I : nat -> S -> Prop) n body (s : S) :
  I O s ->
  (forall i s, (i < n)%nat -> I i s -> exists s', body i s = Ok s' /\ I (Datatypes.S i) s') ->
  exists s', for_res n body s = Ok s' /\ I n s'.
Proof.
  induction n as [|n IH]; intros H0 HS; simpl; [eauto|].
  destruct IH as [s1 [E1 I1]]; auto.
  rewrite E1; simpl. apply HS; auto.
Qed.

Lemma range_policy_inv {S} (I : nat -> S -> Prop) (z : Z) n body (s : S) :
  z = Z.of_nat n ->
  I O s ->
  (forall i s, (i < n)%nat -> I i s -> exists s', body i s = Ok s' /\ I (Datatypes.S i) s') ->
  exists s', range_policy z body s = Ok s' /\ I n s'.
Proof.
  intros -> H0 HS. unfold range_policy. destruct (Z.ltb_spec (Z.of_nat n) 0); [lia|].
  rewrite Nat2Z.id. apply for_res_inv; auto.
Qed.

Lemma dist_right_ok pts fr k i : (0 <= fr)%Z -> k = (fr + Z.of_nat i)%Z ->
  (Z.to_nat fr + S i < length pts)%nat ->
  distance_at_right pts k = Ok (point pts fr (S i) - point pts fr i).
Proof.
  intros Hf -> H. unfold distance_at_right, point.
  rewrite !(rd_shows _ _ _ _ (shows_refl pts)) by lia. simpl.
  do 3 f_equal; lia.
Qed.

Lemma dist_left_ok pts fr k i : (0 <= fr)%Z -> k = (fr + Z.of_nat (S i))%Z ->
  (Z.to_nat fr + S i < length pts)%nat ->
  distance_at_left pts k = Ok (point pts fr (S i) - point pts fr i).
Proof.
  intros Hf -> H. unfold distance_at_left, point.
  rewrite !(rd_shows _ _ _ _ (shows_refl pts)) by lia. simpl.
  do 3 f_equal; lia.
Qed.

Lemma point_lt pts fr i j : increasing pts -> (i < j)%nat -> (Z.to_nat fr + j < length pts)%nat ->
  point pts fr i < point pts fr j.
Proof. intros H ? ?. apply H. lia. Qed.

(** ** Antiderivatives *)
Lemma antiderivative_unique F G f a b : a <= b ->
  antiderivative_on F f a b -> antiderivative_on G f a b -> F b - F a = G b - G a.
Proof.
  intros Hab HF HG. destruct (Req_dec a b) as [->|Hne]; [lra|].
  assert (D : forall t, a <= t <= b -> derivable_pt_lim (fun t => F t - G t) t 0).
  { intros t Ht. replace 0 with (f t - f t) by ring.
    apply (derivable_pt_lim_minus F G); auto. }
  destruct (MVT_cor2 (fun t => F t - G t) (fun _ => 0) a b) as [c [E _]];
    [lra | intros; apply D; lra |]. lra.
Qed.

Lemma antiderivative_sub F f a b a' b' :
  antiderivative_on F f a b -> a <= a' -> b' <= b -> antiderivative_on F f a' b'.
Proof. intros H ? ? t ?. apply H. lra. Qed.

Lemma dpl_eq F t l l' : derivable_pt_lim F t l -> l = l' -> derivable_pt_lim F t l'.
Proof. intros; subst; auto. Qed.

Lemma dpl_monomial n t : derivable_pt_lim (fun t => t ^ S n / INR (S n)) t (t ^ n).
Proof.
  eapply dpl_eq.
  - apply (derivable_pt_lim_scal_right (fun t => t ^ S n) t (INR (S n) * t ^ n) (/ INR (S n))).
    apply (derivable_pt_lim_pow t (S n)).
  - field. apply not_0_INR. lia.
Qed.

Lemma derivable_pt_lim_ext' f g x l :
  (forall t, f t = g t) -> derivable_pt_lim f x l -> derivable_pt_lim g x l.
Proof.
  intros E H eps He. destruct (H eps He) as [d Hd]. exists d. intros h Hh Hhd.
  rewrite <- !E. apply Hd; auto.
Qed.

Lemma quad_antiderivative a b c t :
  derivable_pt_lim (fun t => a * t + b * (t * t / 2) + c * (t * t * t / 3)) t (a + b * t + c * (t * t)).
Proof.
  apply (derivable_pt_lim_ext'
    (fun t => a * (t ^ 1 / INR 1) + b * (t ^ 2 / INR 2) + c * (t ^ 3 / INR 3))).
  { intros u. change (INR 1) with 1. replace (INR 2) with 2 by (simpl; ring). replace (INR 3) with 3 by (simpl; ring). field. }
  eapply dpl_eq.
  - apply (derivable_pt_lim_plus (fun t => a * (t ^ 1 / INR 1) + b * (t ^ 2 / INR 2))
                                 (fun t => c * (t ^ 3 / INR 3))).
    + apply (derivable_pt_lim_plus (fun t => a * (t ^ 1 / INR 1)) (fun t => b * (t ^ 2 / INR 2))).
      * apply (derivable_pt_lim_scal (fun t => t ^ 1 / INR 1)), dpl_monomial.
      * apply (derivable_pt_lim_scal (fun t => t ^ 2 / INR 2)), dpl_monomial.
    + apply (derivable_pt_lim_scal (fun t => t ^ 3 / INR 3)), dpl_monomial.
  - simpl. ring.
Qed.

Lemma affine_cell F f a b u v : u < v ->
  (forall t, u <= t <= v -> f t = a + b * t) -> antiderivative_on F f u v ->
  F v - F u = 0.5 * (v - u) * (f u + f v).
Proof.
  intros H Hf HF.
  rewrite (antiderivative_unique F (fun t => a * t + b * (t * t / 2) + 0 * (t * t * t / 3)) f u v);
    [ | lra | auto | ].
  - rewrite !Hf by lra. replace 0.5 with (1/2) by lra; field.
  - intros t Ht. rewrite Hf by auto.
    eapply dpl_eq; [apply quad_antiderivative|]. ring.
Qed.

Lemma quad_cell F f a b c u m v : u < m -> m < v ->
  (forall t, u <= t <= v -> f t = a + b * t + c * (t * t)) -> antiderivative_on F f u v ->
  F v - F u = simpson_left (m - u) (v - m) * f u + simpson_mid (m - u) (v - m) * f m
              + simpson_right (m - u) (v - m) * f v.
Proof.
  intros H1 H2 Hf HF.
  rewrite (antiderivative_unique F (fun t => a * t + b * (t * t / 2) + c * (t * t * t / 3)) f u v);
    [ | lra | auto | ].
  - rewrite !Hf by lra. unfold simpson_left, simpson_mid, simpson_right. field. lra.
  - intros t Ht. rewrite Hf by auto. apply quad_antiderivative.
Qed.

(** ** Assembly of cell-wise contributions *)
Lemma assemble m (L Rr : nat -> R) (c f : nat -> R) :
  c O = L O -> c (S m) = Rr m ->
  (forall i, (i < m)%nat -> c (S i) = Rr i + L (S i)) ->
  Rsum (S (S m)) (fun i => c i * f i) = Rsum (S m) (fun i => L i * f i + Rr i * f (S i)).
Proof.
  intros H0 Hm Hi.
  change (Rsum (S (S m)) (fun i => c i * f i))
    with (Rsum (S m) (fun i => c i * f i) + c (S m) * f (S m)).
  rewrite Rsum_first. rewrite (Rsum_ext m _ (fun i => Rr i * f (S i) + L (S i) * f (S i)))
    by (intros; rewrite Hi by auto; ring).
  rewrite Rsum_plus, Hm, H0.
  rewrite Rsum_plus. rewrite (Rsum_first m (fun i => L i * f i)).
  change (Rsum (S m) (fun i => Rr i * f (S i)))
    with (Rsum m (fun i => Rr i * f (S i)) + Rr m * f (S m)). ring.
Qed.

Lemma assemble_per m (L Rr : nat -> R) (c f : nat -> R) :
  c O = L O + Rr m -> f (S m) = f O ->
  (forall i, (i < m)%nat -> c (S i) = Rr i + L (S i)) ->
  Rsum (S m) (fun i => c i * f i) = Rsum (S m) (fun i => L i * f i + Rr i * f (S i)).
Proof.
  intros H0 Hf Hi. rewrite Rsum_first.
  rewrite (Rsum_ext m _ (fun i => Rr i * f (S i) + L (S i) * f (S i)))
    by (intros; rewrite Hi by auto; ring).
  rewrite Rsum_plus, H0, Rsum_plus, (Rsum_first m (fun i => L i * f i)).
  change (Rsum (S m) (fun i => Rr i * f (S i)))
    with (Rsum m (fun i => Rr i * f (S i)) + Rr m * f (S m)). rewrite Hf. ring.
Qed.

(** ** Trapezoid *)
Definition half_cell pts fr i := 0.5 * (point pts fr (S i) - point pts fr i).

Lemma trapezoid_shape_np pts fr n c0 :
  (0 <= fr)%Z -> (2 <= n)%nat -> (Z.to_nat fr + n <= length pts)%nat -> length c0 = n ->
  exists c, trapezoid_coefficients false pts fr n c0 = Ok c /\ length c = n /\
    nth 0 c 0 = half_cell pts fr 0 /\ nth (n - 1) c 0 = half_cell pts fr (n - 2) /\
    forall i, (i < n - 2)%nat -> nth (S i) c 0 = half_cell pts fr i + half_cell pts fr (S i).
Proof.
  intros Hfr Hn Hl Hc. unfold trapezoid_coefficients.
  destruct (range_policy_inv
    (fun j c => exists g, shows n c g /\
       forall i, (i < j)%nat -> g (S i) = half_cell pts fr i + half_cell pts fr (S i))
    (Z.of_nat n - 1 - 1) (n - 2)
    (fun k c =>
       let* dl := distance_at_left pts (fr + 1 + Z.of_nat k) in
       let* dr := distance_at_right pts (fr + 1 + Z.of_nat k) in
       wr c (fr + 1 + Z.of_nat k - fr) (0.5 * (dl + dr))) c0) as [c1 [E1 [g1 [S1 I1]]]].
  - lia.
  - exists (fun k => nth k c0 0). split; [rewrite <- Hc; apply shows_refl|intros; lia].
  - intros i s Hi [g [Hs HI]].
    rewrite (dist_left_ok pts fr _ i) by lia.
    rewrite (dist_right_ok pts fr _ (S i)) by lia. simpl bind.
    destruct (wr_shows n s g (fr + 1 + Z.of_nat i - fr)
      (0.5 * (point pts fr (S i) - point pts fr i + (point pts fr (S (S i)) - point pts fr (S i)))) Hs)
      as [s' [E' S']]; [lia|].
    exists s'. split; [exact E'|]. eexists; split; [exact S'|].
    intros k Hk. unfold upd. destruct (Nat.eqb_spec (S k) (Z.to_nat (fr + 1 + Z.of_nat i - fr))).
    + replace k with i by lia. unfold half_cell. ring.
    + apply HI. lia.
  - cbv zeta. cbv iota. rewrite E1. cbn [bind].
    rewrite (dist_right_ok pts fr fr 0) by lia. cbn [bind].
    destruct (wr_shows n c1 g1 (fr - fr) (0.5 * (point pts fr 1 - point pts fr 0)) S1) as [c2 [E2 S2]];
      [lia|].
    rewrite E2. cbn [bind].
    rewrite (dist_left_ok pts fr _ (n - 2)) by lia. cbn [bind].
    destruct (wr_shows n c2 _ (fr + Z.of_nat n - 1 - fr)
      (0.5 * (point pts fr (S (n - 2)) - point pts fr (n - 2))) S2) as [c3 [E3 [L3 S3]]]; [lia|].
    rewrite E3. exists c3. split; [reflexivity|]. split; [exact L3|].
    assert (Z1 : Z.to_nat (fr - fr) = O) by lia.
    assert (Z2 : Z.to_nat (fr + Z.of_nat n - 1 - fr) = (n - 1)%nat) by lia.
    rewrite Z1, Z2 in S3. repeat split.
    + rewrite S3 by lia. unfold upd. destruct (Nat.eqb_spec 0 (n - 1)); [lia|]. reflexivity.
    + rewrite S3 by lia. unfold upd. rewrite Nat.eqb_refl. reflexivity.
    + intros i Hi. rewrite S3 by lia. unfold upd. destruct (Nat.eqb_spec (S i) (n - 1)); [lia|].
      simpl. apply I1. lia.
Qed.

Lemma trapezoid_shape_per pts fr n c0 :
  (0 <= fr)%Z -> (1 <= n)%nat -> (Z.to_nat fr + n < length pts)%nat -> length c0 = n ->
  exists c, trapezoid_coefficients true pts fr n c0 = Ok c /\ length c = n /\
    nth 0 c 0 = half_cell pts fr 0 + half_cell pts fr (n - 1) /\
    forall i, (i < n - 1)%nat -> nth (S i) c 0 = half_cell pts fr i + half_cell pts fr (S i).
Proof.
  intros Hfr Hn Hl Hc. unfold trapezoid_coefficients.
  destruct (range_policy_inv
    (fun j c => exists g, shows n c g /\
       forall i, (i < j)%nat -> g (S i) = half_cell pts fr i + half_cell pts fr (S i))
    (Z.of_nat n - 1 - 0) (n - 1)
    (fun k c =>
       let* dl := distance_at_left pts (fr + 1 + Z.of_nat k) in
       let* dr := distance_at_right pts (fr + 1 + Z.of_nat k) in
       wr c (fr + 1 + Z.of_nat k - fr) (0.5 * (dl + dr))) c0) as [c1 [E1 [g1 [S1 I1]]]].
  - lia.
  - exists (fun k => nth k c0 0). split; [rewrite <- Hc; apply shows_refl|intros; lia].
  - intros i s Hi [g [Hs HI]].
    rewrite (dist_left_ok pts fr _ i) by lia.
    rewrite (dist_right_ok pts fr _ (S i)) by lia. simpl bind.
    destruct (wr_shows n s g (fr + 1 + Z.of_nat i - fr)
      (0.5 * (point pts fr (S i) - point pts fr i + (point pts fr (S (S i)) - point pts fr (S i)))) Hs)
      as [s' [E' S']]; [lia|].
    exists s'. split; [exact E'|]. eexists; split; [exact S'|].
    intros k Hk. unfold upd. destruct (Nat.eqb_spec (S k) (Z.to_nat (fr + 1 + Z.of_nat i - fr))).
    + replace k with i by lia. unfold half_cell. ring.
    + apply HI. lia.
  - cbv zeta. cbv iota. rewrite E1. cbn [bind].
    rewrite (dist_right_ok pts fr (fr + Z.of_nat n - 1) (n - 1)) by lia. cbn [bind].
    rewrite (dist_right_ok pts fr fr 0) by lia. cbn [bind].
    match goal with |- context [wr c1 (fr - fr) ?v] =>
      destruct (wr_shows n c1 g1 (fr - fr) v S1) as [c2 [E2 [L2 S2]]]; [lia|] end.
    rewrite E2. exists c2. split; [reflexivity|]. split; [exact L2|].
    replace (Z.to_nat (fr - fr)) with O in S2 by lia. split.
    + rewrite S2 by lia. unfold upd. simpl. unfold half_cell. ring.
    + intros i Hi. rewrite S2 by lia. unfold upd. simpl. apply I1. lia.
Qed.

(** the sum of the cell integrals of a piecewise affine function *)
Lemma cells_integral pts fr m F f : increasing pts -> (Z.to_nat fr + m < length pts)%nat ->
  affine_on_cells pts fr m f ->
  antiderivative_on F f (point pts fr 0) (point pts fr m) ->
  Rsum m (fun i => half_cell pts fr i * f (point pts fr i) + half_cell pts fr i * f (point pts fr (S i)))
  = F (point pts fr m) - F (point pts fr 0).
Proof.
  intros Hinc Hl Ha HF.
  rewrite <- (Rsum_telescope m (fun i => F (point pts fr i))).
  apply Rsum_ext. intros i Hi. destruct (Ha i Hi) as [a [b Hab]].
  rewrite (affine_cell F f a b (point pts fr i) (point pts fr (S i))).
  - unfold half_cell. ring.
  - apply point_lt; auto; lia.
  - auto.
  - eapply antiderivative_sub; [exact HF| |].
    + destruct i; [lra|]. left. apply point_lt; auto; lia.
    + destruct (Nat.eq_dec (S i) m) as [->|]; [lra|]. left. apply point_lt; auto; lia.
Qed.

Lemma half_cell_pos pts fr i : increasing pts -> (Z.to_nat fr + S i < length pts)%nat ->
  0 < half_cell pts fr i.
Proof. intros H Hl. assert (A := point_lt pts fr i (S i) H). unfold half_cell. lra || (assert (point pts fr i < point pts fr (S i)) by (apply A; lia); lra). Qed.

Lemma one_affine pts fr m : affine_on_cells pts fr m (fun _ => 1).
Proof. intros i _. exists 1, 0. intros. ring. Qed.

Lemma one_anti a b : antiderivative_on (fun t => t) (fun _ => 1) a b.
Proof. intros t _. apply derivable_pt_lim_id. Qed.

Theorem trapezoid_np pts fr n c0 :
  increasing pts -> (0 <= fr)%Z -> (2 <= n)%nat -> (Z.to_nat fr + n <= length pts)%nat ->
  length c0 = n ->
  exists c, trapezoid_coefficients false pts fr n c0 = Ok c /\ length c = n /\
    (forall i, (i < n)%nat -> 0 < nth i c 0) /\
    Rsum n (fun i => nth i c 0) = point pts fr (n - 1) - point pts fr 0 /\
    (forall f F, affine_on_cells pts fr (n - 1) f ->
       antiderivative_on F f (point pts fr 0) (point pts fr (n - 1)) ->
       quad_value pts fr n c f = F (point pts fr (n - 1)) - F (point pts fr 0)).
Proof.
  intros Hinc Hfr Hn Hl Hc.
  destruct (trapezoid_shape_np pts fr n c0) as [c [E [L [H0 [Hm Hi]]]]]; auto.
  exists c. split; [exact E|]. split; [exact L|].
  assert (X : forall f F, affine_on_cells pts fr (n - 1) f ->
       antiderivative_on F f (point pts fr 0) (point pts fr (n - 1)) ->
       quad_value pts fr n c f = F (point pts fr (n - 1)) - F (point pts fr 0)).
  { intros f F Ha HF. unfold quad_value.
    destruct n as [|[|n]]; try lia. simpl in Hm, Hi, Ha, HF |- *. rewrite ?Nat.sub_0_r in *.
    change (Rsum (S (S n)) (fun i => nth i c 0 * f (point pts fr i))
      = F (point pts fr (S n)) - F (point pts fr 0)).
    rewrite (assemble n (half_cell pts fr) (half_cell pts fr) (fun i => nth i c 0)
      (fun i => f (point pts fr i))); auto.
    rewrite <- (cells_integral pts fr (S n) F f); auto; try lia. }
  split; [|split; [|exact X]].
  - intros i Hi'. destruct i as [|i].
    + rewrite H0. apply half_cell_pos; auto; lia.
    + destruct (Nat.eq_dec (S i) (n - 1)) as [->|].
      * rewrite Hm. apply half_cell_pos; auto; lia.
      * rewrite Hi by lia. apply Rplus_lt_0_compat; apply half_cell_pos; auto; lia.
  - rewrite <- (X (fun _ => 1) (fun t => t)); [|apply one_affine|apply one_anti].
    unfold quad_value. apply Rsum_ext. intros; ring.
Qed.

Theorem trapezoid_per pts fr n c0 :
  increasing pts -> (0 <= fr)%Z -> (1 <= n)%nat -> (Z.to_nat fr + n < length pts)%nat ->
  length c0 = n ->
  exists c, trapezoid_coefficients true pts fr n c0 = Ok c /\ length c = n /\
    (forall i, (i < n)%nat -> 0 < nth i c 0) /\
    Rsum n (fun i => nth i c 0) = point pts fr n - point pts fr 0 /\
    (forall f F, affine_on_cells pts fr n f -> f (point pts fr n) = f (point pts fr 0) ->
       antiderivative_on F f (point pts fr 0) (point pts fr n) ->
       quad_value pts fr n c f = F (point pts fr n) - F (point pts fr 0)).
Proof.
  intros Hinc Hfr Hn Hl Hc.
  destruct (trapezoid_shape_per pts fr n c0) as [c [E [L [H0 Hi]]]]; auto.
  exists c. split; [exact E|]. split; [exact L|].
  assert (X : forall f F, affine_on_cells pts fr n f -> f (point pts fr n) = f (point pts fr 0) ->
       antiderivative_on F f (point pts fr 0) (point pts fr n) ->
       quad_value pts fr n c f = F (point pts fr n) - F (point pts fr 0)).
  { intros f F Ha Hp HF. unfold quad_value.
    destruct n as [|n]; try lia. simpl in H0, Hi. rewrite ?Nat.sub_0_r in *.
    rewrite (assemble_per n (half_cell pts fr) (half_cell pts fr) (fun i => nth i c 0)
      (fun i => f (point pts fr i))); auto.
    rewrite <- (cells_integral pts fr (S n) F f); auto. }
  split; [|split; [|exact X]].
  - intros i Hi'. destruct i as [|i].
    + rewrite H0. apply Rplus_lt_0_compat; apply half_cell_pos; auto; lia.
    + rewrite Hi by lia. apply Rplus_lt_0_compat; apply half_cell_pos; auto; lia.
  - rewrite <- (X (fun _ => 1) (fun t => t)); [|apply one_affine|reflexivity|apply one_anti].
    unfold quad_value. apply Rsum_ext. intros; ring.
Qed.
