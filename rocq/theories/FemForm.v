(** The bilinear form of the finite element method: regularity, weak form, Galerkin. *)
From Coq Require Import Permutation ZifyBool FunctionalExtensionality.
From Verif Require Import Lib DerivModel QuadModel MatrixModel MatrixSpec MatrixProofs MatrixSolveModel MatrixLinkModel MatrixLinkProofs
  FemModel FemSpec FemAsm.
Open Scope R_scope.

Lemma quad_ext q f g : (forall x w, In (x, w) q -> f x = g x) -> quad q f = quad q g.
Proof.
  induction q as [|[x w] q IH]; intros H; cbn [quad]; [reflexivity|].
  rewrite (H x w) by (left; reflexivity). rewrite IH; [reflexivity|]. intros; eapply H; right; eauto.
Qed.
Lemma quad_plus q f g : quad q (fun x => f x + g x) = quad q f + quad q g.
Proof. induction q as [|[x w] q IH]; cbn [quad]; [lra|]. rewrite IH. lra. Qed.
Lemma quad_minus q f g : quad q (fun x => f x - g x) = quad q f - quad q g.
Proof. induction q as [|[x w] q IH]; cbn [quad]; [lra|]. rewrite IH. lra. Qed.
Lemma quad_scal q c f : quad q (fun x => c * f x) = c * quad q f.
Proof. induction q as [|[x w] q IH]; cbn [quad]; [lra|]. rewrite IH. lra. Qed.
Lemma quad_zero q : quad q (fun _ => 0) = 0.
Proof. induction q as [|[x w] q IH]; cbn [quad]; [lra|]. rewrite IH. lra. Qed.
Lemma quad_Rsum q n (f : nat -> R -> R) : quad q (fun x => Rsum n (fun i => f i x)) = Rsum n (fun i => quad q (f i)).
Proof.
  induction n as [|n IH]; cbn [Rsum]; [apply quad_zero|].
  rewrite quad_plus, IH. reflexivity.
Qed.
Lemma quad_nonneg q f : (forall x w, In (x, w) q -> 0 < w) -> (forall x, 0 <= f x) -> 0 <= quad q f.
Proof.
  induction q as [|[x w] q IH]; intros Hw Hf; cbn [quad]; [lra|].
  assert (0 <= quad q f) by (apply IH; [intros; eapply Hw; right; eauto|exact Hf]).
  pose proof (Hw x w (or_introl eq_refl)). pose proof (Hf x). nra.
Qed.
Lemma quad_sq_zero q f : (forall x w, In (x, w) q -> 0 < w) -> quad q (fun x => f x * f x) = 0 ->
  forall x w, In (x, w) q -> f x = 0.
Proof.
  induction q as [|[x0 w0] q IH]; intros Hw Hz x w Hin; [destruct Hin|]. cbn [quad] in Hz.
  assert (Hw0 : 0 < w0) by (apply (Hw x0); left; reflexivity).
  assert (Hq : forall x w, In (x, w) q -> 0 < w) by (intros; eapply Hw; right; eauto).
  assert (H1 : 0 <= quad q (fun x => f x * f x)) by (apply quad_nonneg; [exact Hq|intros; nra]).
  assert (H2 : 0 <= f x0 * f x0) by nra.
  assert (H3 : 0 <= w0 * (f x0 * f x0)) by nra.
  destruct Hin as [E|Hin].
  - injection E as <- <-. assert (H4 : w0 * (f x0 * f x0) = 0) by lra.
    apply Rmult_integral in H4. destruct H4 as [H4|H4]; [lra|]. apply Rmult_integral in H4. tauto.
  - apply (IH Hq) with (w := w); [lra|exact Hin].
Qed.

(** sums over the basis are sums over the table *)
Lemma table_sum nb jmin d (vals c : nat -> R) : (nb <> 0)%nat ->
  Rsum nb (fun i => c i * Rsum d (fun j => if ((jmin + j) mod nb =? i)%nat then vals j else 0)) =
  Rsum d (fun j => c ((jmin + j) mod nb)%nat * vals j).
Proof.
  intros Hn. erewrite Rsum_ext. 2:{ intros i _. rewrite <- Rsum_scal. reflexivity. }
  rewrite Rsum_swap. apply Rsum_ext. intros j _.
  rewrite (Rsum_single nb _ ((jmin + j) mod nb)).
  - rewrite Nat.eqb_refl. reflexivity.
  - apply Nat.mod_upper_bound; exact Hn.
  - intros i _ Hi. replace ((jmin + j) mod nb =? i)%nat with false by lia. lra.
Qed.

Section Form.
Variable b : basis.
Variable q : list (R * R).
Hypothesis Hb : bspline_basis b.
Notation nb := (nbas b).

Lemma nb_pos : (nb <> 0)%nat.
Proof. destruct Hb as [H _]. lia. Qed.

Lemma sfun_table c x : sfun b c x = Rsum (S (deg b)) (fun j => c ((fst (ev b x) + j) mod nb)%nat * snd (ev b x) j).
Proof. apply table_sum, nb_pos. Qed.
Lemma dsfun_table c x : dsfun b c x = Rsum (S (deg b)) (fun j => c ((fst (dv b x) + j) mod nb)%nat * snd (dv b x) j).
Proof. apply table_sum, nb_pos. Qed.

Lemma sfun_const k x : sfun b (fun _ => k) x = k.
Proof. rewrite sfun_table, Rsum_scal. destruct Hb as [_ [_ H]]. rewrite (proj1 (H x)). lra. Qed.
Lemma dsfun_const k x : dsfun b (fun _ => k) x = 0.
Proof. rewrite dsfun_table, Rsum_scal. destruct Hb as [_ [_ H]]. rewrite (proj2 (H x)). lra. Qed.

Lemma dsfun_lin a c d x : dsfun b (fun i => a * c i + d i) x = a * dsfun b c x + dsfun b d x.
Proof. unfold dsfun. rewrite <- Rsum_scal, <- Rsum_plus. apply Rsum_ext. intros; lra. Qed.
Lemma sfun_lin a c d x : sfun b (fun i => a * c i + d i) x = a * sfun b c x + sfun b d x.
Proof. unfold sfun. rewrite <- Rsum_scal, <- Rsum_plus. apply Rsum_ext. intros; lra. Qed.
Lemma sint_lin a c d : sint b (fun i => a * c i + d i) = a * sint b c + sint b d.
Proof. unfold sint. rewrite <- Rsum_scal, <- Rsum_plus. apply Rsum_ext. intros; lra. Qed.

Lemma dsfun_ext c c' x : (forall i, (i < nb)%nat -> c i = c' i) -> dsfun b c x = dsfun b c' x.
Proof. intros H. apply Rsum_ext. intros i Hi. rewrite H by exact Hi. reflexivity. Qed.
Lemma sfun_ext c c' x : (forall i, (i < nb)%nat -> c i = c' i) -> sfun b c x = sfun b c' x.
Proof. intros H. apply Rsum_ext. intros i Hi. rewrite H by exact Hi. reflexivity. Qed.

(** the form in terms of the stiffness matrix *)
Lemma stiff_row c i : Rsum nb (fun j => stiff b q i j * c j) = quad q (fun x => dsfun b c x * dbfun b i x).
Proof.
  unfold stiff, dsfun. erewrite Rsum_ext.
  2:{ intros j _. rewrite Rmult_comm, <- quad_scal. reflexivity. }
  rewrite <- (quad_Rsum q nb (fun j x => c j * (dbfun b i x * dbfun b j x))).
  apply quad_ext. intros x w _. rewrite <- Rsum_scal_r. apply Rsum_ext. intros; lra.
Qed.
Lemma stiff_form c v : Rsum nb (fun i => v i * Rsum nb (fun j => stiff b q i j * c j)) = quad q (fun x => dsfun b c x * dsfun b v x).
Proof.
  erewrite Rsum_ext. 2:{ intros i _. rewrite stiff_row, <- quad_scal. reflexivity. }
  rewrite <- (quad_Rsum q nb (fun i x => v i * (dsfun b c x * dbfun b i x))).
  apply quad_ext. intros x w _. unfold dsfun at 3. rewrite <- Rsum_scal. apply Rsum_ext. intros; lra.
Qed.
Lemma load_form f v : Rsum nb (fun i => v i * quad q (fun x => f x * bfun b i x)) = quad q (fun x => f x * sfun b v x).
Proof.
  erewrite Rsum_ext. 2:{ intros i _. rewrite <- quad_scal. reflexivity. }
  rewrite <- (quad_Rsum q nb (fun i x => v i * (f x * bfun b i x))).
  apply quad_ext. intros x w _. unfold sfun. rewrite <- Rsum_scal. apply Rsum_ext. intros; lra.
Qed.

Hypothesis Hq : good_quadrature b q.

Lemma energy_zero c : quad q (fun x => dsfun b c x * dsfun b c x) = 0 ->
  forall i j, (i < nb)%nat -> (j < nb)%nat -> c i = c j.
Proof.
  intros H. destruct Hq as [Hw Hc]. apply Hc. apply quad_sq_zero; [exact Hw|exact H].
Qed.

(** ** regularity *)
Lemma Kper_row (x : vec) i : (i < nb)%nat ->
  Rsum (S nb) (fun j => natmat (Kper b q) i j * x j) = Rsum nb (fun j => stiff b q i j * x j) + ints b i * x nb.
Proof.
  intros Hi. cbn [Rsum]. unfold natmat, Kper. cbv zeta. f_equal.
  - apply Rsum_ext. intros j Hj. replace (Z.of_nat i =? Z.of_nat nb)%Z with false by lia.
    replace (Z.of_nat j =? Z.of_nat nb)%Z with false by lia. rewrite !Nat2Z.id. reflexivity.
  - replace (Z.of_nat i =? Z.of_nat nb)%Z with false by lia. rewrite Z.eqb_refl, Nat2Z.id. reflexivity.
Qed.
Lemma Kper_last (x : vec) : Rsum (S nb) (fun j => natmat (Kper b q) nb j * x j) = sint b x.
Proof.
  cbn [Rsum]. unfold natmat, Kper. cbv zeta. rewrite !Z.eqb_refl, Rmult_0_l, Rplus_0_r.
  apply Rsum_ext. intros j Hj. replace (Z.of_nat j =? Z.of_nat nb)%Z with false by lia. rewrite Nat2Z.id. lra.
Qed.

Lemma Kper_regular : sint b (fun _ => 1) <> 0 -> regular (S nb) (natmat (Kper b q)).
Proof.
  intros HL x Hx.
  assert (Hrow : forall i, (i < nb)%nat -> Rsum nb (fun j => stiff b q i j * x j) + ints b i * x nb = 0).
  { intros i Hi. rewrite <- Kper_row by exact Hi. apply Hx. lia. }
  assert (Hlast : sint b x = 0) by (rewrite <- Kper_last; apply Hx; lia).
  assert (HE : quad q (fun y => dsfun b x y * dsfun b x y) = 0).
  { rewrite <- stiff_form.
    assert (Rsum nb (fun i => x i * (Rsum nb (fun j => stiff b q i j * x j) + ints b i * x nb)) = 0).
    { apply Rsum_zero. intros i Hi. rewrite Hrow by exact Hi. lra. }
    erewrite Rsum_ext in H. 2:{ intros i _. rewrite Rmult_plus_distr_l. reflexivity. }
    rewrite Rsum_plus in H. replace (Rsum nb (fun i => x i * (ints b i * x nb))) with (sint b x * x nb) in H.
    - rewrite Hlast in H. lra.
    - unfold sint. rewrite <- Rsum_scal_r. apply Rsum_ext. intros; lra. }
  pose proof (energy_zero x HE) as Hc.
  assert (Hz : forall i, (i < nb)%nat -> x i = 0).
  { intros i Hi. assert (Hs : sint b x = x i * sint b (fun _ => 1)).
    { unfold sint. rewrite <- Rsum_scal. apply Rsum_ext. intros j Hj. rewrite (Hc j i Hj Hi). lra. }
    rewrite Hlast in Hs. symmetry in Hs. apply Rmult_integral in Hs. destruct Hs as [Hs|Hs]; [exact Hs|contradiction]. }
  intros i Hi. destruct (Nat.eq_dec i nb) as [->|Hne]; [|apply Hz; lia].
  assert (Hs : sint b (fun _ => 1) * x nb = 0).
  { unfold sint. rewrite <- Rsum_scal_r. apply Rsum_zero. intros j Hj.
    pose proof (Hrow j Hj) as H. rewrite Rsum_zero in H; [lra|]. intros k Hk. rewrite Hz by exact Hk. lra. }
  apply Rmult_integral in Hs. destruct Hs as [Hs|Hs]; [contradiction|exact Hs].
Qed.

(** a principal sub-matrix of the stiffness matrix that leaves out at least one function *)
Lemma stiff_sub_regular s m : (s + m <= nb)%nat -> (m < nb)%nat ->
  regular m (fun i j => stiff b q (s + i) (s + j)).
Proof.
  intros Hs Hm x Hx.
  set (c := fun i => if ((s <=? i) && (i <? s + m))%nat%bool then x (i - s)%nat else 0).
  assert (Hc1 : forall i, (i < m)%nat -> c (s + i)%nat = x i).
  { intros i Hi. unfold c. replace ((s <=? s + i) && (s + i <? s + m))%nat%bool with true by lia. f_equal; lia. }
  assert (Hc0 : forall i, (i < s \/ s + m <= i)%nat -> c i = 0).
  { intros i Hi. unfold c. replace ((s <=? i) && (i <? s + m))%nat%bool with false by lia. reflexivity. }
  assert (HE : quad q (fun y => dsfun b c y * dsfun b c y) = 0).
  { rewrite <- stiff_form. rewrite (Rsum_shift_support nb s m); [|exact Hs|].
    2:{ intros p Hp. rewrite Hc0 by lia. lra. }
    apply Rsum_zero. intros i Hi. rewrite (Rsum_shift_support nb s m); [|exact Hs|].
    2:{ intros p Hp. rewrite (Hc0 p) by lia. lra. }
    erewrite Rsum_ext. 2:{ intros j Hj. rewrite Hc1 by exact Hj. reflexivity. }
    rewrite (Hx i Hi). lra. }
  pose proof (energy_zero c HE) as Hc. intros i Hi. rewrite <- Hc1 by exact Hi.
  destruct (Nat.eq_dec s 0) as [Hs0|Hs0].
  - rewrite (Hc (s + i)%nat (nb - 1)%nat) by lia. apply Hc0. lia.
  - rewrite (Hc (s + i)%nat 0%nat) by lia. apply Hc0. lia.
Qed.

Lemma Kper_solvable : sint b (fun _ => 1) <> 0 -> solvable (req_per b) (Kper b q).
Proof.
  intros HL. unfold solvable. cbn [req_per req_pds req_n region_start region_size]. split.
  - replace (Z.to_nat (Z.of_nat nb + 1)) with (S nb) by lia. apply Kper_regular; exact HL.
  - destruct Hb as [Hd _]. unfold band_start. cbn [Z.eqb].
    replace (Z.to_nat (Z.of_nat nb + 1 - (Z.of_nat (deg b) + 1) - 0)) with (nb - deg b)%nat by lia.
    eapply regular_ext; [|apply (stiff_sub_regular 0 (nb - deg b)); lia].
    intros i j Hi Hj. cbv beta. unfold natmat, Kper. cbv zeta.
    replace (0 + Z.of_nat i =? Z.of_nat nb)%Z with false by lia. replace (0 + Z.of_nat j =? Z.of_nat nb)%Z with false by lia.
    f_equal; lia.
Qed.
Lemma Kdir_solvable : (2 < nb)%nat -> solvable (req_dir b) (Kdir b q).
Proof.
  intros Hn. unfold solvable. cbn [req_dir req_pds req_n region_start region_size].
  assert (H : regular (Z.to_nat (Z.of_nat nb - 2)) (natmat (Kdir b q))).
  { replace (Z.to_nat (Z.of_nat nb - 2)) with (nb - 2)%nat by lia.
    eapply regular_ext; [|apply (stiff_sub_regular 1 (nb - 2)); lia].
    intros i j Hi Hj. cbv beta. unfold natmat, Kdir. f_equal; lia. }
  split; [exact H|exact H].
Qed.

(** ** from the linear systems to the weak forms *)
Lemma weak_periodic (x : vec) f : sint b (fun _ => 1) <> 0 ->
  (forall i, (i < S nb)%nat -> Rsum (S nb) (fun j => natmat (Kper b q) i j * x j) =
     if (i <? nb)%nat then quad q (fun y => f y * bfun b i y) else 0) ->
  sint b x = 0 /\
  forall v, quad q (fun y => dsfun b x y * dsfun b v y) =
            quad q (fun y => f y * sfun b v y) - quad q f / sint b (fun _ => 1) * sint b v.
Proof.
  intros HL Hx. split.
  { rewrite <- Kper_last, Hx by lia. rewrite Nat.ltb_irrefl. reflexivity. }
  assert (Hv : forall v, quad q (fun y => dsfun b x y * dsfun b v y) + x nb * sint b v = quad q (fun y => f y * sfun b v y)).
  { intros v. rewrite <- stiff_form, <- load_form. unfold sint. rewrite <- Rsum_scal, <- Rsum_plus. apply Rsum_ext.
    intros i Hi. assert (H := Hx i ltac:(lia)). rewrite Kper_row in H by exact Hi. replace (i <? nb)%nat with true in H by lia.
    rewrite <- H. lra. }
  assert (Hone : x nb * sint b (fun _ => 1) = quad q f).
  { pose proof (Hv (fun _ => 1)) as H1. rewrite (quad_ext q _ (fun _ => 0)) in H1 by (intros; rewrite dsfun_const; lra).
    rewrite quad_zero in H1. rewrite (quad_ext q (fun y => f y * sfun b (fun _ => 1) y) f) in H1 by (intros; rewrite sfun_const; lra). lra. }
  intros v. rewrite <- (Hv v), <- Hone. field. exact HL.
Qed.

Lemma weak_dirichlet (x : vec) f : (2 < nb)%nat ->
  (forall i, (i < nb - 2)%nat -> Rsum (nb - 2) (fun j => natmat (Kdir b q) i j * x j) = quad q (fun y => f y * bfun b (S i) y)) ->
  let c := fun i => if ((1 <=? i) && (i <? nb - 1))%nat%bool then x (i - 1)%nat else 0 in
  forall v, dirichlet b v -> weak b q (dsfun b c) f v.
Proof.
  intros Hn Hx c v [Hv0 Hv1]. unfold weak. rewrite <- stiff_form, <- load_form.
  assert (Hc0 : forall i, (i < 1 \/ 1 + (nb - 2) <= i)%nat -> c i = 0).
  { intros i Hi. unfold c. replace ((1 <=? i) && (i <? nb - 1))%nat%bool with false by lia. reflexivity. }
  assert (Hvz : forall i, (i < nb)%nat -> (i < 1 \/ 1 + (nb - 2) <= i)%nat -> v i = 0).
  { intros i Hi [H|H]; [replace i with O by lia; exact Hv0|replace i with (nb - 1)%nat by lia; exact Hv1]. }
  apply Rsum_ext. intros i Hi. destruct (le_lt_dec (1 + (nb - 2)) i) as [Hl|Hl].
  { rewrite Hvz by lia. lra. }
  destruct (Nat.eq_dec i 0) as [->|Hi0]; [rewrite Hv0; lra|].
  f_equal. transitivity (Rsum (nb - 2) (fun j => natmat (Kdir b q) (i - 1)%nat j * x j));
    [|rewrite Hx by lia; replace (S (i - 1)) with i by lia; reflexivity].
  rewrite (Rsum_shift_support nb 1 (nb - 2)); [|lia|].
  2:{ intros p Hp. rewrite Hc0 by lia. lra. }
  apply Rsum_ext. intros j Hj. unfold natmat, Kdir, c. replace ((1 <=? 1 + j) && (1 + j <? nb - 1))%nat%bool with true by lia.
  replace (1 + j - 1)%nat with j by lia. f_equal. f_equal; lia.
Qed.

(** ** consequences of the weak form *)
Lemma form_unique_dir f c c' : dirichlet b c -> dirichlet b c' ->
  (forall v, dirichlet b v -> weak b q (dsfun b c) f v) -> (forall v, dirichlet b v -> weak b q (dsfun b c') f v) ->
  forall i, (i < nb)%nat -> c i = c' i.
Proof.
  intros [H0 H1] [H0' H1'] Hw Hw' i Hi.
  set (v := fun i => -1 * c' i + c i).
  assert (Hv : dirichlet b v) by (unfold v; split; [rewrite H0, H0'|rewrite H1, H1']; lra).
  assert (HE : quad q (fun y => dsfun b v y * dsfun b v y) = 0).
  { rewrite (quad_ext q _ (fun y => dsfun b c y * dsfun b v y - dsfun b c' y * dsfun b v y)).
    - rewrite quad_minus. pose proof (Hw v Hv) as E1. pose proof (Hw' v Hv) as E2. unfold weak in E1, E2. rewrite E1, E2. lra.
    - intros x w _. unfold v at 1. rewrite dsfun_lin. lra. }
  assert (Hc : v i = v O) by (apply (energy_zero v HE); [exact Hi|destruct Hb as [H _]; lia]).
  rewrite (proj1 Hv) in Hc. unfold v in Hc. lra.
Qed.

Lemma form_unique_per (l : (nat -> R) -> R) c c' : sint b (fun _ => 1) <> 0 -> sint b c = 0 -> sint b c' = 0 ->
  (forall v, quad q (fun x => dsfun b c x * dsfun b v x) = l v) -> (forall v, quad q (fun x => dsfun b c' x * dsfun b v x) = l v) ->
  forall i, (i < nb)%nat -> c i = c' i.
Proof.
  intros HL H0 H0' Hw Hw' i Hi.
  set (v := fun i => -1 * c' i + c i).
  assert (Hv : sint b v = 0) by (unfold v; rewrite sint_lin, H0, H0'; lra).
  assert (HE : quad q (fun y => dsfun b v y * dsfun b v y) = 0).
  { rewrite (quad_ext q _ (fun y => dsfun b c y * dsfun b v y - dsfun b c' y * dsfun b v y)).
    - rewrite quad_minus, Hw, Hw'. lra.
    - intros x w _. unfold v at 1. rewrite dsfun_lin. lra. }
  pose proof (energy_zero v HE) as Hc.
  assert (Hs : sint b v = v i * sint b (fun _ => 1)).
  { unfold sint. rewrite <- Rsum_scal. apply Rsum_ext. intros j Hj. rewrite (Hc j i Hj Hi). lra. }
  rewrite Hv in Hs. symmetry in Hs. apply Rmult_integral in Hs. destruct Hs as [Hs|Hs]; [unfold v in Hs; lra|contradiction].
Qed.

(** the best approximation in the energy norm: c is as good as any other d for which c - d is a
    test function *)
Lemma best_approx (du : R -> R) c d :
  quad q (fun x => (du x - dsfun b c x) * dsfun b (fun i => -1 * d i + c i) x) = 0 ->
  quad q (fun x => (du x - dsfun b c x) ^ 2) <= quad q (fun x => (du x - dsfun b d x) ^ 2).
Proof.
  intros H. set (v := fun i => -1 * d i + c i) in *.
  rewrite (quad_ext q (fun x => (du x - dsfun b d x) ^ 2)
    (fun x => (du x - dsfun b c x) ^ 2 + (2 * ((du x - dsfun b c x) * dsfun b v x) + (dsfun b v x) ^ 2))).
  - rewrite quad_plus, quad_plus, quad_scal, H.
    assert (0 <= quad q (fun x => dsfun b v x ^ 2)) by (apply quad_nonneg; [exact (proj1 Hq)|intros; nra]). lra.
  - intros x w _. unfold v. rewrite dsfun_lin. ring.
Qed.
End Form.
