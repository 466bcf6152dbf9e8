(** Chain rule, curls of fields given in curvilinear components, field loops and gradient creators. *)
From Coquelicot Require Import Coquelicot.
From Coq Require Import Lia Lra FunctionalExtensionality.
From Verif Require Import TensorSpec TensorProofs TensorMulProofs TensorStaticProofs.
From Verif Require Import DiffOpModel DiffOpSpec MappingVec DiffOpProofs DiffOpCurl DiffOpMain RestrictProofs.
Open Scope R_scope.

(** ** Chain rule *)
Lemma common_delta (P : nat -> R -> Prop) n :
  (forall i d d', P i d -> 0 < d' <= d -> P i d') -> (forall i, (i < n)%nat -> exists d, 0 < d /\ P i d) ->
  exists d, 0 < d /\ forall i, (i < n)%nat -> P i d.
Proof.
  intros HM. induction n as [|n IH]; intros H.
  - exists 1. split; [lra|]. intros; lia.
  - destruct IH as [d1 [H1 P1]]; [intros; apply H; lia|]. destruct (H n ltac:(lia)) as [d2 [H2 P2]].
    exists (Rmin d1 d2). split; [apply Rmin_glb_lt; auto|]. intros i Hi.
    pose proof (Rmin_l d1 d2). pose proof (Rmin_r d1 d2). assert (0 < Rmin d1 d2) by (apply Rmin_glb_lt; auto).
    destruct (Nat.eq_dec i n) as [->|N]; [apply (HM n d2); auto|apply (HM i d1); [apply P1; lia|auto]].
Qed.
Lemma Rsum_abs n f : Rabs (Rsum n f) <= Rsum n (fun i => Rabs (f i)).
Proof. induction n; simpl; [rewrite Rabs_R0; lra|]. eapply Rle_trans; [apply Rabs_triang|]. lra. Qed.

Lemma chain n F x D (c : R -> nat -> R) t0 c' : differentiable_at n F x D ->
  (forall i, (i < n)%nat -> c t0 i = x i) ->
  (forall y y', (forall i, (i < n)%nat -> y i = y' i) -> F y = F y') ->
  (forall i, (i < n)%nat -> derivable_pt_lim (fun t => c t i) t0 (c' i)) ->
  derivable_pt_lim (fun t => F (c t)) t0 (Rsum n (fun i => D i * c' i)).
Proof.
  intros HF Hx HT Hc eps Heps.
  set (M := Rsum n (fun i => Rabs (c' i)) + INR n).
  assert (HM : 0 <= M).
  { unfold M. pose proof (Rsum_nonneg n (fun i => Rabs (c' i)) (fun i _ => Rabs_pos (c' i))). pose proof (pos_INR n). lra. }
  set (SD := Rsum n (fun i => Rabs (D i))).
  assert (HSD : 0 <= SD) by (apply Rsum_nonneg; intros; apply Rabs_pos).
  set (e1 := eps / (2 * (M + 1))).
  assert (He1 : 0 < e1) by (apply Rdiv_lt_0_compat; lra).
  destruct (HF e1 He1) as [d1 [Hd1 F1]].
  set (e2 := Rmin 1 (eps / (2 * (SD + 1)))).
  assert (He2 : 0 < e2) by (apply Rmin_glb_lt; [lra|apply Rdiv_lt_0_compat; lra]).
  destruct (common_delta (fun i d => forall h, h <> 0 -> Rabs h < d -> Rabs ((c (t0 + h) i - c t0 i) / h - c' i) < e2) n) as [d2 [Hd2 C2]].
  { intros i d d' H [_ Hd] h Hh Hl. apply H; auto. lra. }
  { intros i Hi. destruct (Hc i Hi e2 He2) as [d H]. exists d. split; [apply cond_pos|]. exact H. }
  set (d3 := d1 / (M + 1)).
  assert (Hd3 : 0 < d3) by (apply Rdiv_lt_0_compat; lra).
  assert (Hd : 0 < Rmin d2 d3) by (apply Rmin_glb_lt; auto).
  exists (mkposreal _ Hd). intros h Hh Hl. cbn in Hl.
  assert (Hl2 : Rabs h < d2) by (eapply Rlt_le_trans; [exact Hl|apply Rmin_l]).
  assert (Hl3 : Rabs h < d3) by (eapply Rlt_le_trans; [exact Hl|apply Rmin_r]).
  assert (Hah : 0 < Rabs h) by (apply Rabs_pos_lt; auto).
  assert (E21 : e2 <= 1) by apply Rmin_l.
  assert (E22 : e2 <= eps / (2 * (SD + 1))) by apply Rmin_r.
  (* increments *)
  assert (INC : forall i, (i < n)%nat -> Rabs (c (t0 + h) i - x i) <= (Rabs (c' i) + 1) * Rabs h).
  { intros i Hi. specialize (C2 i Hi h Hh Hl2). rewrite <- (Hx i Hi).
    replace (c (t0 + h) i - c t0 i) with (((c (t0 + h) i - c t0 i) / h - c' i + c' i) * h) by (field; auto).
    rewrite Rabs_mult. apply Rmult_le_compat_r; [apply Rabs_pos|]. eapply Rle_trans; [apply Rabs_triang|]. lra. }
  assert (SUM : Rsum n (fun i => Rabs (c (t0 + h) i - x i)) <= M * Rabs h).
  { eapply Rle_trans; [apply Rsum_le; intros i Hi; apply (INC i Hi)|].
    rewrite Rsum_scal_r. apply Rmult_le_compat_r; [lra|]. rewrite Rsum_plus. rewrite Rsum_const. unfold M. lra. }
  assert (EF : F (c t0) = F x) by (apply HT; auto).
  assert (DEL : forall i, (i < n)%nat -> Rabs (c (t0 + h) i - x i) < d1).
  { intros i Hi. eapply Rle_lt_trans; [apply INC; auto|].
    assert (Rabs (c' i) + 1 <= M + 1).
    { unfold M. assert (Rabs (c' i) <= Rsum n (fun i => Rabs (c' i))).
      { clear - Hi. induction n; [lia|]. simpl. pose proof (Rabs_pos (c' n)).
        destruct (Nat.eq_dec i n) as [->|N].
        - pose proof (Rsum_nonneg n (fun i => Rabs (c' i)) (fun i _ => Rabs_pos (c' i))). lra.
        - specialize (IHn ltac:(lia)). lra. }
      pose proof (pos_INR n). lra. }
    apply Rle_lt_trans with ((M + 1) * Rabs h); [apply Rmult_le_compat_r; lra|].
    replace d1 with ((M + 1) * d3) by (unfold d3; field; lra). apply Rmult_lt_compat_l; lra. }
  specialize (F1 (c (t0 + h)) DEL). cbv beta. rewrite EF.
  replace ((F (c (t0 + h)) - F x) / h - Rsum n (fun i => D i * c' i)) with
    ((F (c (t0 + h)) - F x - Rsum n (fun i => D i * (c (t0 + h) i - x i))) / h
     + Rsum n (fun i => D i * ((c (t0 + h) i - c t0 i) / h - c' i))).
  2:{ rewrite (Rsum_ext n (fun i => D i * ((c (t0 + h) i - c t0 i) / h - c' i))
        (fun i => D i * (c (t0 + h) i - x i) * / h - D i * c' i)).
      2:{ intros i Hi. rewrite (Hx i Hi). field; auto. }
      rewrite Rsum_minus, Rsum_scal_r. field; auto. }
  eapply Rle_lt_trans; [apply Rabs_triang|].
  apply Rle_lt_trans with (e1 * M + SD * e2).
  - apply Rplus_le_compat.
    + unfold Rdiv at 1. rewrite Rabs_mult, Rabs_inv.
      apply Rle_trans with (e1 * (M * Rabs h) * / Rabs h).
      * apply Rmult_le_compat_r; [left; apply Rinv_0_lt_compat; auto|]. eapply Rle_trans; [exact F1|].
        apply Rmult_le_compat_l; lra.
      * right. field. lra.
    + eapply Rle_trans; [apply Rsum_abs|]. unfold SD. rewrite <- Rsum_scal_r. apply Rsum_le. intros i Hi.
      rewrite Rabs_mult. apply Rmult_le_compat_l; [apply Rabs_pos|]. left. apply C2; auto.
  - assert (e1 * M < eps / 2).
    { apply Rlt_le_trans with (e1 * (M + 1)); [apply Rmult_lt_compat_l; [exact He1|lra]|right; unfold e1; field; lra]. }
    assert (SD * e2 <= eps / 2).
    { apply Rle_trans with (SD * (eps / (2 * (SD + 1)))); [apply Rmult_le_compat_l; auto|].
      apply Rle_trans with ((SD + 1) * (eps / (2 * (SD + 1)))); [apply Rmult_le_compat_r; [left; apply Rdiv_lt_0_compat; lra|lra]|].
      right. field. lra. }
    lra.
Qed.

Lemma upd_same (p : nat -> R) l i : upd p l (p l) i = p i.
Proof. unfold upd. destruct (Nat.eqb_spec i l) as [->|]; auto. Qed.
(** the partial derivatives of a function of the physical position are the covariant components of its
    Cartesian gradient *)
Lemma pullback_gradient n m p F D d : well_typed n m ->
  (forall i j, (i < n)%nat -> (j < n)%nat -> derivable_pt_lim (fun t => m_apply m (upd p j t) i) (p j) (m_J m p i j)) ->
  depends_on n F -> differentiable_at n F (m_apply m p) D ->
  partials_of n (fun q => F (m_apply m q)) p d ->
  MappingSpec.represents n (m_J m p) ArgCov d D.
Proof.
  intros HW HP HF HD Hd l Hl.
  pose proof (chain n F (m_apply m p) D (fun t => m_apply m (upd p l t)) (p l) (fun i => m_J m p i l) HD) as C.
  assert (E : d l = Rsum n (fun i => D i * m_J m p i l)).
  { eapply uniqueness_limite; [apply (Hd l Hl)|]. apply C; auto.
    intros i Hi. apply HW; auto. intros k Hk. apply upd_same. }
  cbn. rewrite E. apply Rsum_ext. intros; ring.
Qed.

Lemma derivable_Rsum n (f : nat -> R -> R) f' x : (forall i, (i < n)%nat -> derivable_pt_lim (f i) x (f' i)) ->
  derivable_pt_lim (fun t => Rsum n (fun i => f i t)) x (Rsum n f').
Proof.
  induction n as [|n IH]; intros H; simpl.
  - apply derivable_pt_lim_const.
  - apply (derivable_pt_lim_plus (fun t => Rsum n (fun i => f i t)) (f n)); [apply IH; intros; apply H; lia|apply H; lia].
Qed.
Lemma cov_field_partials n m p U D H mm l df : well_typed n m ->
  (forall i j, (i < n)%nat -> (j < n)%nat -> derivable_pt_lim (fun t => m_apply m (upd p j t) i) (p j) (m_J m p i j)) ->
  (forall i j, (i < n)%nat -> (j < n)%nat -> m_J m (upd p l (p l)) i j = m_J m p i j) ->
  second_derivatives n m p H ->
  (forall i, (i < n)%nat -> depends_on n (fun x => U x i)) ->
  (forall i, (i < n)%nat -> differentiable_at n (fun x => U x i) (m_apply m p) (D i)) ->
  (mm < n)%nat -> (l < n)%nat ->
  derivable_pt_lim (fun t => cov_field n m U mm (upd p l t)) (p l) df ->
  df = Rsum n (fun i => H i mm l * U (m_apply m p) i) +
       Rsum n (fun i => Rsum n (fun j => m_J m p i mm * D i j * m_J m p j l)).
Proof.
  intros HW HP HE [HH _] HU HD Hm Hl Hf. eapply uniqueness_limite; [exact Hf|].
  rewrite <- Rsum_plus. unfold cov_field.
  apply (derivable_Rsum n (fun i t => m_J m (upd p l t) i mm * U (m_apply m (upd p l t)) i)).
  intros i Hi.
  assert (CH : derivable_pt_lim (fun t => U (m_apply m (upd p l t)) i) (p l) (Rsum n (fun j => D i j * m_J m p j l))).
  { apply (chain n (fun x => U x i) (m_apply m p) (D i) (fun t => m_apply m (upd p l t)) (p l) (fun j => m_J m p j l)); auto.
    - intros k Hk. apply HW; auto. intros q Hq. apply upd_same.
    - apply HU; auto. }
  pose proof (derivable_pt_lim_mult _ _ _ _ _ (HH i mm l Hi Hm Hl) CH) as P. cbv beta in P. rewrite HE in P by auto.
  assert (EU : U (m_apply m (upd p l (p l))) i = U (m_apply m p) i).
  { apply (HU i Hi). intros k Hk. apply HW; auto. intros q Hq. apply upd_same. }
  rewrite EU in P. unfold mult_fct in P.
  match goal with |- derivable_pt_lim _ _ ?r => match type of P with derivable_pt_lim _ _ ?r' => replace r with r' end end; [exact P|].
  f_equal. rewrite <- Rsum_scal. apply Rsum_ext. intros; ring.
Qed.

Lemma jac_nonzero m p : 1 / 10 ^ 19 <= Rabs (m_jac m p) -> m_jac m p <> 0.
Proof. intros H E. rewrite E, Rabs_R0 in H. assert (0 < 1 / 10 ^ 19) by (apply Rdiv_lt_0_compat; [lra|apply pow_lt; lra]). lra. Qed.
Lemma curl_physical cart m p U D H df : usable cart m p -> well_typed 3 m ->
  (forall i j, (i < 3)%nat -> (j < 3)%nat -> derivable_pt_lim (fun t => m_apply m (upd p j t) i) (p j) (m_J m p i j)) ->
  (forall i j l, (i < 3)%nat -> (j < 3)%nat -> (l < 3)%nat -> m_J m (upd p l (p l)) i j = m_J m p i j) ->
  second_derivatives 3 m p H ->
  (forall i, (i < 3)%nat -> depends_on 3 (fun x => U x i)) ->
  (forall i, (i < 3)%nat -> differentiable_at 3 (fun x => U x i) (m_apply m p) (D i)) ->
  length df = 9%nat ->
  (forall mm l, (mm < 3)%nat -> (l < 3)%nat ->
     derivable_pt_lim (fun t => cov_field 3 m U mm (upd p l t)) (p l) (comp2 3 df mm l)) ->
  exists v, curl cart m p df = Ok v /\ length v = 3%nat /\
    MappingSpec.represents 3 (m_J m p) ArgContra (comp v) (cartesian_curl D).
Proof.
  intros [HJD [HJ HC]] HW HP HE HH HU HD HL Hf. eexists. split; [apply curl_value; auto|].
  split; [rewrite map_length, seq_length; auto|]. intros a Ha.
  pose proof (jac_nonzero _ _ HJ) as NZ. cbn [det_n] in HJD.
  transitivity (1 / m_jac m p * determinant3 (m_J m p) * cartesian_curl D a).
  { rewrite <- HJD. field. auto. }
  rewrite <- (curl_alg (m_J m p) H (fun i => U (m_apply m p) i) D (1 / m_jac m p) df a Ha (proj2 HH)).
  - apply Rsum_ext. intros k Hk. unfold comp. rewrite map_seq_nth' by auto. reflexivity.
  - intros mm l Hm Hl. apply (cov_field_partials 3 m p U D H mm l); auto.
Qed.
Lemma curl_symmetric cart m p df : 1 / 10 ^ 19 <= Rabs (m_jac m p) -> (cart = true -> m_jac m p = 1) ->
  length df = 9%nat -> (forall i j, (i < 3)%nat -> (j < 3)%nat -> comp2 3 df i j = comp2 3 df j i) ->
  curl cart m p df = Ok [0; 0; 0].
Proof.
  intros HJ HC HL HS. rewrite curl_value by auto. f_equal.
  assert (S1 : comp2 3 df 0 1 = comp2 3 df 1 0) by (apply HS; lia).
  assert (S2 : comp2 3 df 0 2 = comp2 3 df 2 0) by (apply HS; lia).
  assert (S3 : comp2 3 df 1 2 = comp2 3 df 2 1) by (apply HS; lia).
  unfold curl_sum. cbn. rewrite S1, S2, S3. f_equal; [ring|]. f_equal; [ring|]. f_equal. ring.
Qed.

(** ** Loops over a field *)
Section Loop.
  Context {X V : Type} (dec : forall x y : X, {x = y} + {x <> y}).
  Lemma for_each_spec (body : X -> res V) : forall range out, NoDup range ->
    (forall i, In i range -> exists v, body i = Ok v) ->
    exists o, for_each dec range body out = Ok o /\
      (forall i, In i range -> body i = Ok (o i)) /\ (forall i, ~ In i range -> o i = out i).
  Proof.
    induction range as [|a t IH]; intros out HN HB.
    - exists out. split; [reflexivity|]. split; [intros i []|auto].
    - destruct (HB a (or_introl eq_refl)) as [v Ev]. cbn [for_each]. rewrite Ev. cbn [bind].
      inversion HN; subst.
      destruct (IH (set_at dec out a v)) as [o [E [A B]]]; auto; [intros; apply HB; right; auto|].
      exists o. split; [exact E|]. split.
      + intros i [<-|Hi]; [|auto]. rewrite B by auto. unfold set_at. destruct (dec a a); congruence.
      + intros i Hi. rewrite B by (intros C; apply Hi; right; auto). unfold set_at. destruct (dec i a) as [->|]; auto.
        exfalso. apply Hi. left; auto.
  Qed.
End Loop.

(** ** Gradient creators *)
Section Creators.
  Context {X C : Type} (dec : forall x y : X, {x = y} + {x <> y}).
  Lemma fill_spec (range : list X) (val : X -> R) (out : X -> R) : NoDup range ->
    exists o, for_each dec range (fun i => Ok (val i)) out = Ok o /\ @writes X range out o val.
  Proof.
    intros HN. destruct (for_each_spec dec (fun i => Ok (val i)) range out HN) as [o [E [A B]]]; [eauto|].
    exists o. split; [exact E|]. split; auto. intros i Hi. specialize (A i Hi). cbv beta in A. congruence.
  Qed.
  Lemma constant_computes v : computes (constant_creator dec v) (fun _ _ => v).
  Proof.
    intros range field out s HN. destruct (fill_spec range (fun _ => v) out HN) as [o [E W]].
    exists o. unfold constant_creator. rewrite E. split; [reflexivity|exact W].
  Qed.
  Lemma spline1_computes (build : (X -> R) -> C) deriv1 : computes (spline1_creator dec build deriv1) (fun f => deriv1 (build f)).
  Proof.
    intros range field out s HN. destruct (fill_spec range (deriv1 (build field)) out HN) as [o [E W]].
    exists o. unfold spline1_creator. cbv zeta. change (fun i => Ok (deriv1 (build field) i)) with (fun i => Ok (deriv1 (build field) i)) in E.
    rewrite E. split; [reflexivity|exact W].
  Qed.
  Lemma gradient_creator_spec (creators : list (@creator X unit)) : forall ops k (range : list X) func out s, NoDup range ->
    Forall2 computes creators ops ->
    exists o, gradient_creator k creators range func out s = Ok (o, s) /\
      (forall j op, nth_error ops j = Some op -> writes range (out (k + j)%nat) (o (k + j)%nat) (op func)) /\
      (forall q, (q < k \/ k + length ops <= q)%nat -> o q = out q).
  Proof.
    induction creators as [|c t IH]; intros ops k range func out s HN HF; inversion HF; subst.
    - exists out. split; [reflexivity|]. split; [intros j op Hj; destruct j; discriminate|auto].
    - match goal with H : computes c ?y |- _ => destruct (H range func (out k) s HN) as [o1 [E1 W1]] end.
      cbn [gradient_creator]. rewrite E1. cbn [bind fst snd].
      match goal with H : Forall2 computes t ?l |- _ => destruct (IH l (S k) range func (upd out k o1) s HN H) as [o [E [A B]]] end.
      exists o. split; [exact E|]. split.
      + intros [|j] op Hj.
        * injection Hj as <-. rewrite Nat.add_0_r. rewrite B by lia. rewrite upd_eq. exact W1.
        * replace (k + S j)%nat with (S k + j)%nat by lia. specialize (A j op Hj).
          rewrite upd_neq in A by lia. exact A.
      + intros q Hq. cbn [length] in Hq. rewrite B by lia. apply upd_neq. lia.
  Qed.
  (** the two operators of a spline surface sharing a cache, after any number of calls of the same
      gradient creator *)
  Lemma cache_gradient (build : (X -> R) -> C) deriv1 d fields func range out : NoDup range ->
    exists o s', gradient_creator 0 [spline2_creator dec build deriv1 d; spline2_creator dec build deriv1 (other_dim d)] range func out
        (cache_run build (iterations d fields)) = Ok (o, s') /\ s' = cache_run build (iterations d (fields ++ [func])) /\
      writes range (out 0%nat) (o 0%nat) (deriv1 d (build func)) /\
      writes range (out 1%nat) (o 1%nat) (deriv1 (other_dim d) (build func)) /\
      forall q, (2 <= q)%nat -> o q = out q.
  Proof.
    intros HN.
    set (s := cache_run build (iterations d fields)).
    destruct (documented_usage build d fields func) as [U1 U2].
    assert (S1 : cache_run build (iterations d fields ++ [(d, func)]) = compute_coeffs build d func s).
    { unfold s, cache_run. rewrite fold_left_app. reflexivity. }
    assert (S2 : cache_run build (iterations d (fields ++ [func])) = compute_coeffs build (other_dim d) func (compute_coeffs build d func s)).
    { unfold iterations. rewrite flat_map_app. cbn [flat_map app]. unfold cache_run. rewrite fold_left_app. reflexivity. }
    rewrite S1 in U1. rewrite S2 in U2.
    destruct (fill_spec range (deriv1 d (build func)) (out 0%nat) HN) as [o0 [E0 W0]].
    destruct (fill_spec range (deriv1 (other_dim d) (build func)) (out 1%nat) HN) as [o1 [E1 W1]].
    exists (upd (upd out 0%nat o0) 1%nat o1), (cache_run build (iterations d (fields ++ [func]))).
    split; [|split; [reflexivity|split; [|split]]].
    - cbn [gradient_creator]. unfold spline2_creator at 1. cbv zeta. rewrite U1.
      match goal with |- context [for_each dec range ?b (out 0%nat)] => change (for_each dec range b (out 0%nat)) with (for_each dec range (fun i => Ok (deriv1 d (build func) i)) (out 0%nat)) end.
      rewrite E0. cbn [bind fst snd]. unfold spline2_creator. cbv zeta. rewrite U2.
      rewrite (upd_neq out 0%nat 1%nat) by lia.
      match goal with |- context [for_each dec range ?b (out 1%nat)] => change (for_each dec range b (out 1%nat)) with (for_each dec range (fun i => Ok (deriv1 (other_dim d) (build func) i)) (out 1%nat)) end.
      rewrite E1. cbn [bind fst snd]. rewrite S2. reflexivity.
    - rewrite upd_neq by lia. rewrite upd_eq. exact W0.
    - rewrite upd_eq. exact W1.
    - intros q Hq. rewrite !upd_neq by lia. reflexivity.
  Qed.
  Lemma two_orders (build : (X -> R) -> C) deriv1 f g range out : NoDup range ->
    exists o s', gradient_creator 0 [spline2_creator dec build deriv1 Dim2; spline2_creator dec build deriv1 Dim1] range g out
        (cache_run build (iterations Dim1 [f])) = Ok (o, s') /\
      writes range (out 0%nat) (o 0%nat) (deriv1 Dim2 (build f)).
  Proof.
    intros HN. destruct (fill_spec range (deriv1 Dim2 (build f)) (out 0%nat) HN) as [o0 [E0 W0]].
    destruct (fill_spec range (deriv1 Dim1 (build g)) (out 1%nat) HN) as [o1 [E1 W1]].
    exists (upd (upd out 0%nat o0) 1%nat o1). eexists. split.
    - cbn [gradient_creator]. unfold spline2_creator at 1. cbn [iterations flat_map other_dim app cache_run fold_left fst snd cache_new compute_coeffs sc_dim1 sc_dim2 sc_coeffs].
      match goal with |- context [for_each dec range ?b (out 0%nat)] => change (for_each dec range b (out 0%nat)) with (for_each dec range (fun i => Ok (deriv1 Dim2 (build f) i)) (out 0%nat)) end.
      rewrite E0. cbn [bind fst snd]. unfold spline2_creator.
      cbn [iterations flat_map other_dim app cache_run fold_left fst snd cache_new compute_coeffs sc_dim1 sc_dim2 sc_coeffs].
      rewrite (upd_neq out 0%nat 1%nat) by lia.
      match goal with |- context [for_each dec range ?b (out 1%nat)] => change (for_each dec range b (out 1%nat)) with (for_each dec range (fun i => Ok (deriv1 Dim1 (build g) i)) (out 1%nat)) end.
      rewrite E1. reflexivity.
    - rewrite upd_neq by lia. rewrite upd_eq. exact W0.
  Qed.
End Creators.

(** ** Algebra of the bracket *)
Lemma bracket_swap c g b df dg : bracket_sum c g b dg df = - bracket_sum c g b df dg.
Proof. unfold bracket_sum. cbn. ring. Qed.
Lemma bracket_linear c g b df x y dg1 dg2 dg : (forall k, (k < 3)%nat -> comp dg k = x * comp dg1 k + y * comp dg2 k) ->
  bracket_sum c g b df dg = x * bracket_sum c g b df dg1 + y * bracket_sum c g b df dg2.
Proof.
  intros H. unfold bracket_sum.
  transitivity (Rsum 3 (fun i => Rsum 3 (fun j => Rsum 3 (fun k => Rsum 3 (fun l =>
    IZR (eps [i; j; k]) * c * comp2 3 g i l * comp b l * comp df j * (x * comp dg1 k + y * comp dg2 k)))))).
  { apply Rsum_ext. intros i Hi. apply Rsum_ext. intros j Hj. apply Rsum_ext. intros k Hk. apply Rsum_ext. intros l Hl. rewrite H by auto. reflexivity. }
  cbn. ring.
Qed.
Lemma bracket_casimir c g b df dg x : (forall j, (j < 3)%nat -> comp df j = x * Rsum 3 (fun l => comp2 3 g j l * comp b l)) ->
  bracket_sum c g b df dg = 0.
Proof.
  intros H. unfold bracket_sum.
  transitivity (Rsum 3 (fun i => Rsum 3 (fun j => Rsum 3 (fun k => Rsum 3 (fun l =>
    IZR (eps [i; j; k]) * c * comp2 3 g i l * comp b l * (x * Rsum 3 (fun l => comp2 3 g j l * comp b l)) * comp dg k))))).
  { apply Rsum_ext. intros i Hi. apply Rsum_ext. intros j Hj. apply Rsum_ext. intros k Hk. apply Rsum_ext. intros l Hl. rewrite H by auto. reflexivity. }
  cbn. ring.
Qed.
Lemma usable_jac cart m p : usable cart m p -> 1 / 10 ^ 19 <= Rabs (m_jac m p) /\ (cart = true -> m_jac m p = 1).
Proof. intros [_ H]. exact H. Qed.
Lemma bracket_antisym cart m p df dg B : usable cart m p ->
  length df = 3%nat -> length dg = 3%nat -> length B = 3%nat ->
  exists v, bracket cart m p df dg B = Ok v /\ bracket cart m p dg df B = Ok (- v).
Proof. intros HU H1 H2 H3. apply usable_jac in HU. destruct HU. eexists. rewrite !bracket_value by auto. split; [reflexivity|]. f_equal. apply bracket_swap. Qed.
Lemma bracket_bilinear cart m p df x y dg1 dg2 dg B : usable cart m p ->
  length df = 3%nat -> length dg1 = 3%nat -> length dg2 = 3%nat -> length dg = 3%nat -> length B = 3%nat ->
  (forall k, (k < 3)%nat -> comp dg k = x * comp dg1 k + y * comp dg2 k) ->
  exists v1 v2, bracket cart m p df dg1 B = Ok v1 /\ bracket cart m p df dg2 B = Ok v2 /\
    bracket cart m p df dg B = Ok (x * v1 + y * v2).
Proof.
  intros HU H1 H2 H3 H4 H5 H. apply usable_jac in HU. destruct HU. do 2 eexists. rewrite !bracket_value by auto.
  split; [reflexivity|]. split; [reflexivity|]. f_equal. apply bracket_linear; auto.
Qed.
Lemma bracket_parallel cart m p df dg B x : usable cart m p ->
  length df = 3%nat -> length dg = 3%nat -> length B = 3%nat -> 0 < quad_form (mat_data 3 (metric 3 m p)) B ->
  (forall j, (j < 3)%nat -> comp df j = x * Rsum 3 (fun l => metric 3 m p j l * comp B l)) ->
  bracket cart m p df dg B = Ok 0.
Proof.
  intros HU H1 H2 H3 HB H. apply usable_jac in HU. destruct HU. rewrite bracket_value by auto. f_equal.
  set (nb := sqrt (quad_form (mat_data 3 (metric 3 m p)) B)). assert (0 < nb) by (apply sqrt_lt_R0; auto).
  apply (bracket_casimir _ _ _ _ _ (x * nb)). intros j Hj. rewrite (H j Hj), Rmult_assoc. f_equal.
  rewrite <- Rsum_scal. apply Rsum_ext. intros l Hl. rewrite mat_data_comp by auto.
  unfold comp, tensor_div. rewrite nth_indep with (d' := 0 / nb) (n := l) (l := map _ B) by (rewrite map_length; lia).
  rewrite map_nth with (f := fun e => e / nb). field. lra.
Qed.
Lemma represents_ext n J s v v' u : (forall i, (i < n)%nat -> v i = v' i) -> MappingSpec.represents n J s v u -> MappingSpec.represents n J s v' u.
Proof. intros H HR i Hi. specialize (HR i Hi). destruct s; cbn in *; try (rewrite <- H; auto; fail). rewrite HR. apply Rsum_ext. intros j Hj. rewrite H by auto. reflexivity. Qed.

(** ** The cylindrical mapping *)
Lemma cyl_second p : exists H, second_derivatives 3 cylindrical p H.
Proof.
  exists (fun i j l =>
    match i, j, l with
    | O, O, S (S O) | O, S (S O), O => - sin (p 2%nat)
    | O, S (S O), S (S O) => - p 0%nat * cos (p 2%nat)
    | S O, O, S (S O) | S O, S (S O), O => cos (p 2%nat)
    | S O, S (S O), S (S O) => - p 0%nat * sin (p 2%nat)
    | _, _, _ => 0
    end).
  split.
  - intros i j l Hi Hj Hl. apply is_derive_Reals.
    assert (i = 0 \/ i = 1 \/ i = 2)%nat as [->| [->| ->]] by lia;
    assert (j = 0 \/ j = 1 \/ j = 2)%nat as [->| [->| ->]] by lia;
    assert (l = 0 \/ l = 1 \/ l = 2)%nat as [->| [->| ->]] by lia;
    cbn; unfold upd; cbn; auto_derive; auto; ring.
  - intros i j l Hi Hj Hl.
    assert (i = 0 \/ i = 1 \/ i = 2)%nat as [->| [->| ->]] by lia;
    assert (j = 0 \/ j = 1 \/ j = 2)%nat as [->| [->| ->]] by lia;
    assert (l = 0 \/ l = 1 \/ l = 2)%nat as [->| [->| ->]] by lia; reflexivity.
Qed.
Lemma cyl_typed : well_typed 3 cylindrical.
Proof.
  intros q r H i Hi. cbn. unfold cyl_apply. rewrite !H by lia. reflexivity.
Qed.
Lemma cyl_usable p : tiny <= p 0%nat -> usable false cylindrical p.
Proof.
  intros H. assert (T : 0 < tiny) by (unfold tiny; apply Rinv_0_lt_compat, pow_lt; lra).
  split; [|split; [|discriminate]].
  - apply (MappingCyl.cyl_jacobian p).
  - change (m_jac cylindrical p) with (- p 0%nat). rewrite Rabs_left by lra. rewrite Ropp_involutive.
    apply Rle_trans with tiny; auto. unfold tiny. unfold Rdiv. rewrite Rmult_1_l.
    apply Rinv_le_contravar; [apply pow_lt; lra|]. apply Rle_pow; [lra|lia].
Qed.
Lemma cyl_self p i j l : (i < 3)%nat -> (j < 3)%nat -> (l < 3)%nat -> m_J cylindrical (upd p l (p l)) i j = m_J cylindrical p i j.
Proof.
  intros Hi Hj Hl. cbn. unfold cyl_J. rewrite !upd_same. reflexivity.
Qed.

(** ** Identity coordinate change *)
Lemma identity_jacobian n same p : n = 2%nat \/ n = 3%nat -> jacobian_ok n (identity_map n same) p.
Proof.
  intros Hn. split; [|split].
  - intros i j Hi Hj. cbn. unfold identity_matrix, upd. destruct (Nat.eqb_spec i j).
    + apply derivable_pt_lim_id.
    + apply derivable_pt_lim_const.
  - destruct Hn as [->| ->]; cbn; unfold determinant2, determinant3, identity_matrix; cbn; ring.
  - intros i j Hi Hj. cbn -[Nat.ltb]. apply Nat.ltb_lt in Hi, Hj. rewrite Hi, Hj. reflexivity.
Qed.
Lemma identity_inverse n p : n = 2%nat \/ n = 3%nat -> inv_jacobian_ok n (identity_map n true) p.
Proof.
  intros Hn. exists identity_matrix. split; [reflexivity|]. split.
  - split; intros i j Hi Hj; unfold mmul;
    assert (i = 0 \/ i = 1 \/ i = 2)%nat as Ci by lia; assert (j = 0 \/ j = 1 \/ j = 2)%nat as Cj by lia;
    destruct Hn as [->| ->]; destruct Ci as [->| [->| ->]]; destruct Cj as [->| [->| ->]]; cbn; unfold identity_matrix; cbn; first [ring | lia].
  - intros i j Hi Hj. cbn -[Nat.ltb]. apply Nat.ltb_lt in Hi, Hj. rewrite Hi, Hj. reflexivity.
Qed.
Lemma identity_usable p : usable true (identity_map 3 true) p.
Proof.
  split; [apply (identity_jacobian 3 true p); auto|]. split; [|reflexivity].
  change (m_jac (identity_map 3 true) p) with 1. rewrite Rabs_R1. unfold Rdiv. rewrite Rmult_1_l.
  apply Rle_trans with (/ 1); [|lra]. apply Rinv_le_contravar; [lra|]. apply pow_R1_Rle. lra.
Qed.
(** a linear function is differentiable *)
Lemma linear_differentiable n F x D : (forall y, F y = F x + Rsum n (fun i => D i * (y i - x i))) -> differentiable_at n F x D.
Proof.
  intros H eps He. exists 1. split; [lra|]. intros y _. rewrite H.
  match goal with |- Rabs ?a <= _ => replace a with 0 by lra end. rewrite Rabs_R0.
  apply Rmult_le_pos; [lra|]. apply Rsum_nonneg. intros; apply Rabs_pos.
Qed.
