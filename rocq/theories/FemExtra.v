(** Consequences of the weak form for the outputs; hat functions as an instance. *)
From Coq Require Import Permutation ZifyBool FunctionalExtensionality.
From Verif Require Import Lib DerivModel DerivRanges QuadModel OnionEval MatrixModel MatrixSpec MatrixProofs MatrixSolveModel MatrixLinkModel MatrixLinkProofs
  FemModel FemSpec FemAsm FemForm FemSolve FemMain.
Open Scope R_scope.

Lemma fem_both lapack lapackT b q swap nbatch rho_h sched grid : fem_inputs lapack lapackT b q nbatch sched ->
  fem_output b grid nbatch (fun ib c => weak_solution b q (rho_h ib) c) (fem_poisson lapack b q swap nbatch rho_h sched grid).
Proof.
  intros [HL [Hb [Hq [Hs Hp]]]]. unfold weak_solution. destruct (per b) eqn:E; [eapply fem_periodic|eapply fem_dirichlet]; eauto.
Qed.

Lemma spec_unique b q f c c' : bspline_basis b -> good_quadrature b q ->
  (if per b then sint b (fun _ => 1) <> 0 else (2 < nbas b)%nat) ->
  weak_solution b q f c -> weak_solution b q f c' -> forall i, (i < nbas b)%nat -> c i = c' i.
Proof.
  intros Hb Hq Hs. unfold weak_solution. destruct (per b).
  - intros [H1 H2] [H1' H2']. exact (form_unique_per b q Hq (fun v => quad q (fun x => f x * sfun b v x) - quad q f / sint b (fun _ => 1) * sint b v) c c' Hs H1 H1' H2 H2').
  - intros [H1 H2] [H1' H2']. eapply form_unique_dir; eauto.
Qed.

Lemma spec_ext b q f f' c : (forall x w, In (x, w) q -> f x = f' x) -> weak_solution b q f c -> weak_solution b q f' c.
Proof.
  intros H. unfold weak_solution, periodic_solution, dirichlet_solution. destruct (per b).
  - intros [H1 H2]. split; [exact H1|]. intros v. rewrite H2. f_equal; [|f_equal; f_equal; apply quad_ext; exact H].
    apply quad_ext. intros x w Hin. rewrite (H x w Hin). reflexivity.
  - intros [H1 H2]. split; [exact H1|]. intros v Hv. unfold weak. rewrite (H2 v Hv). apply quad_ext. intros x w Hin. rewrite (H x w Hin). reflexivity.
Qed.

Lemma spec_linear b q a f g c d : bspline_basis b ->
  weak_solution b q f c -> weak_solution b q g d -> weak_solution b q (fun x => a * f x + g x) (fun i => a * c i + d i).
Proof.
  intros Hb. unfold weak_solution, periodic_solution, dirichlet_solution. destruct (per b).
  - intros [H1 H2] [H1' H2']. split; [rewrite sint_lin, H1, H1'; lra|]. intros v.
    rewrite (quad_ext q _ (fun x => a * (dsfun b c x * dsfun b v x) + dsfun b d x * dsfun b v x)) by (intros; rewrite dsfun_lin; lra).
    rewrite quad_plus, quad_scal, H2, H2'.
    rewrite (quad_ext q (fun x => (a * f x + g x) * sfun b v x) (fun x => a * (f x * sfun b v x) + g x * sfun b v x)) by (intros; lra).
    rewrite !quad_plus, !quad_scal. unfold Rdiv. ring.
  - intros [[H1 H1a] H2] [[H1' H1a'] H2']. split; [split; [rewrite H1, H1'|rewrite H1a, H1a']; lra|]. intros v Hv. unfold weak.
    rewrite (quad_ext q _ (fun x => a * (dsfun b c x * dsfun b v x) + dsfun b d x * dsfun b v x)) by (intros; rewrite dsfun_lin; lra).
    rewrite quad_plus, quad_scal. pose proof (H2 v Hv) as E1. pose proof (H2' v Hv) as E2. unfold weak in E1, E2. rewrite E1, E2.
    rewrite <- quad_scal, <- quad_plus. apply quad_ext. intros; lra.
Qed.

Lemma fun_pair_ext b c c' grid : (forall i, (i < nbas b)%nat -> c i = c' i) ->
  map (fun x => (sfun b c x, - dsfun b c x)) grid = map (fun x => (sfun b c' x, - dsfun b c' x)) grid.
Proof.
  intros H. apply map_ext. intros x. rewrite (sfun_ext b c c' x H), (dsfun_ext b c c' x H). reflexivity.
Qed.

Lemma fem_determined b q grid lapack1 lapackT1 lapack2 lapackT2 swap1 swap2 nb1 nb2 rho1 rho2 sched1 sched2 :
  fem_inputs lapack1 lapackT1 b q nb1 sched1 -> fem_inputs lapack2 lapackT2 b q nb2 sched2 ->
  exists out1 out2,
    fem_poisson lapack1 b q swap1 nb1 rho1 sched1 grid = Ok out1 /\
    fem_poisson lapack2 b q swap2 nb2 rho2 sched2 grid = Ok out2 /\
    forall ib1 ib2, (ib1 < nb1)%nat -> (ib2 < nb2)%nat ->
      (forall x w, In (x, w) q -> rho1 ib1 x = rho2 ib2 x) -> nth ib1 out1 [] = nth ib2 out2 [].
Proof.
  intros H1 H2. destruct (fem_both _ _ b q swap1 nb1 rho1 sched1 grid H1) as [o1 [c1 [E1 [L1 N1]]]].
  destruct (fem_both _ _ b q swap2 nb2 rho2 sched2 grid H2) as [o2 [c2 [E2 [L2 N2]]]].
  exists o1, o2. split; [exact E1|]. split; [exact E2|]. intros ib1 ib2 Hi1 Hi2 Hr.
  destruct (N1 ib1 Hi1) as [M1 S1]. destruct (N2 ib2 Hi2) as [M2 S2]. rewrite M1, M2.
  destruct H1 as [_ [Hb [Hq [Hs _]]]]. apply fun_pair_ext.
  apply (spec_unique b q (rho2 ib2) _ _ Hb Hq Hs); [eapply spec_ext; [exact Hr|exact S1]|exact S2].
Qed.

Lemma fem_linear b q grid lapack lapackT swap nbatch sched rho1 rho2 a :
  fem_inputs lapack lapackT b q nbatch sched ->
  exists out1 out2 out,
    fem_poisson lapack b q swap nbatch rho1 sched grid = Ok out1 /\
    fem_poisson lapack b q swap nbatch rho2 sched grid = Ok out2 /\
    fem_poisson lapack b q swap nbatch (fun ib x => a * rho1 ib x + rho2 ib x) sched grid = Ok out /\
    forall ib k, (ib < nbatch)%nat -> (k < length grid)%nat ->
      let v o := nth k (nth ib o []) (0, 0) in
      fst (v out) = a * fst (v out1) + fst (v out2) /\ snd (v out) = a * snd (v out1) + snd (v out2).
Proof.
  intros H. destruct (fem_both _ _ b q swap nbatch rho1 sched grid H) as [o1 [c1 [E1 [L1 N1]]]].
  destruct (fem_both _ _ b q swap nbatch rho2 sched grid H) as [o2 [c2 [E2 [L2 N2]]]].
  destruct (fem_both _ _ b q swap nbatch (fun ib x => a * rho1 ib x + rho2 ib x) sched grid H) as [o [c [E [L N]]]].
  exists o1, o2, o. split; [exact E1|]. split; [exact E2|]. split; [exact E|]. intros ib k Hib Hk. cbv zeta.
  destruct (N1 ib Hib) as [M1 S1]. destruct (N2 ib Hib) as [M2 S2]. destruct (N ib Hib) as [M S0]. rewrite M1, M2, M.
  destruct H as [_ [Hb [Hq [Hs _]]]].
  assert (Hc : forall i, (i < nbas b)%nat -> c ib i = a * c1 ib i + c2 ib i).
  { eapply spec_unique; eauto. apply (spec_linear b q a (rho1 ib) (rho2 ib) (c1 ib) (c2 ib) Hb S1 S2). }
  assert (Hn : forall cc : nat -> R, nth k (map (fun x => (sfun b cc x, - dsfun b cc x)) grid) (0, 0) =
     (sfun b cc (nth k grid 0), - dsfun b cc (nth k grid 0))).
  { intros cc. apply nth_error_nth. rewrite nth_error_map, (nth_error_nth' grid 0 Hk). reflexivity. }
  rewrite !Hn. cbn [fst snd].
  rewrite (sfun_ext b _ _ (nth k grid 0) Hc), (dsfun_ext b _ _ (nth k grid 0) Hc), sfun_lin, dsfun_lin. split; lra.
Qed.

Lemma fem_exact b q grid lapack lapackT swap nbatch sched rho (u : nat -> nat -> R) :
  fem_inputs lapack lapackT b q nbatch sched ->
  (forall ib, (ib < nbatch)%nat -> weak_solution b q (rho ib) (u ib)) ->
  exists out, fem_poisson lapack b q swap nbatch rho sched grid = Ok out /\
    forall ib, (ib < nbatch)%nat -> nth ib out [] = map (fun x => (sfun b (u ib) x, - dsfun b (u ib) x)) grid.
Proof.
  intros H Hu. destruct (fem_both _ _ b q swap nbatch rho sched grid H) as [o [c [E [L N]]]].
  exists o. split; [exact E|]. intros ib Hib. destruct (N ib Hib) as [M S0]. rewrite M.
  destruct H as [_ [Hb [Hq [Hs _]]]]. apply fun_pair_ext. eapply spec_unique; eauto.
Qed.

Lemma fem_best b q grid lapack lapackT swap nbatch sched rho (du : nat -> R -> R) :
  fem_inputs lapack lapackT b q nbatch sched -> per b = false ->
  (forall ib v, (ib < nbatch)%nat -> dirichlet b v -> weak b q (du ib) (rho ib) v) ->
  fem_output b grid nbatch (fun ib c => dirichlet b c /\ forall d, dirichlet b d ->
      quad q (fun x => (du ib x - dsfun b c x) ^ 2) <= quad q (fun x => (du ib x - dsfun b d x) ^ 2))
    (fem_poisson lapack b q swap nbatch rho sched grid).
Proof.
  intros H Hper Hu. destruct (fem_both _ _ b q swap nbatch rho sched grid H) as [o [c [E [L N]]]].
  exists o, c. split; [exact E|]. split; [exact L|]. intros ib Hib. destruct (N ib Hib) as [M S0]. split; [exact M|].
  destruct H as [_ [Hb [Hq _]]]. unfold weak_solution in S0. rewrite Hper in S0. destruct S0 as [[S1 S1'] S2].
  split; [split; assumption|]. intros d [D1 D2]. apply best_approx; [exact Hq|].
  assert (Hv : dirichlet b (fun i => -1 * d i + c ib i)) by (split; [rewrite D1, S1|rewrite D2, S1']; lra).
  rewrite (quad_ext q _ (fun x => du ib x * dsfun b (fun i => -1 * d i + c ib i) x - dsfun b (c ib) x * dsfun b (fun i => -1 * d i + c ib i) x)) by (intros; lra).
  rewrite quad_minus. pose proof (Hu ib _ Hib Hv) as W1. pose proof (S2 _ Hv) as W2. unfold weak in W1, W2. rewrite W1, W2. lra.
Qed.

Lemma fem_best_per b q grid lapack lapackT swap nbatch sched rho (du : nat -> R -> R) :
  fem_inputs lapack lapackT b q nbatch sched -> per b = true ->
  (forall i, (i < nbas b)%nat -> ints b i = quad q (bfun b i)) ->
  (forall ib v, (ib < nbatch)%nat -> weak b q (du ib) (fun x => rho ib x - quad q (rho ib) / quad q (fun _ => 1)) v) ->
  fem_output b grid nbatch (fun ib c => sint b c = 0 /\ forall d,
      quad q (fun x => (du ib x - dsfun b c x) ^ 2) <= quad q (fun x => (du ib x - dsfun b d x) ^ 2))
    (fem_poisson lapack b q swap nbatch rho sched grid).
Proof.
  intros H Hper Hi Hu. destruct (fem_both _ _ b q swap nbatch rho sched grid H) as [o [c [E [L N]]]].
  exists o, c. split; [exact E|]. split; [exact L|]. intros ib Hib. destruct (N ib Hib) as [M S0]. split; [exact M|].
  destruct H as [_ [Hb [Hq _]]]. unfold weak_solution in S0. rewrite Hper in S0. destruct S0 as [S1 S2].
  split; [exact S1|]. intros d. apply best_approx; [exact Hq|].
  set (v := fun i => -1 * d i + c ib i).
  rewrite (quad_ext q _ (fun x => du ib x * dsfun b v x - dsfun b (c ib) x * dsfun b v x)) by (intros; lra).
  assert (Hint : forall v, sint b v = quad q (sfun b v)).
  { intros u. unfold sint, sfun. rewrite (quad_Rsum q (nbas b) (fun i x => u i * bfun b i x)). apply Rsum_ext.
    intros i Hi'. rewrite quad_scal, <- Hi by exact Hi'. reflexivity. }
  rewrite quad_minus. pose proof (Hu ib v Hib) as W1. unfold weak in W1. rewrite W1, S2.
  rewrite (quad_ext q _ (fun x => rho ib x * sfun b v x - quad q (rho ib) / quad q (fun _ => 1) * sfun b v x)) by (intros; lra).
  rewrite quad_minus, quad_scal, !Hint.
  rewrite (quad_ext q (sfun b (fun _ : nat => 1)) (fun _ => 1)) by (intros; apply sfun_const; exact Hb). lra.
Qed.

Lemma weak_mean b q f c : bspline_basis b -> (forall i, (i < nbas b)%nat -> ints b i = quad q (bfun b i)) ->
  periodic_solution b q f c -> forall v, weak b q (dsfun b c) (fun x => f x - quad q f / quad q (fun _ => 1)) v.
Proof.
  intros Hb Hi [_ H] v.
  assert (Hint : forall v, sint b v = quad q (sfun b v)).
  { intros u. unfold sint, sfun. rewrite (quad_Rsum q (nbas b) (fun i x => u i * bfun b i x)). apply Rsum_ext.
    intros i Hi'. rewrite quad_scal, <- Hi by exact Hi'. reflexivity. }
  unfold weak. rewrite H, !Hint.
  rewrite (quad_ext q (sfun b (fun _ : nat => 1)) (fun _ => 1)) by (intros; apply sfun_const; exact Hb).
  rewrite (quad_ext q (fun x => (f x - quad q f / quad q (fun _ => 1)) * sfun b v x)
    (fun x => f x * sfun b v x - quad q f / quad q (fun _ => 1) * sfun b v x)) by (intros; lra).
  rewrite quad_minus, quad_scal. lra.
Qed.

(** ** hat functions on 0, 1, 2, 3 (, 4) *)
Definition hat_cell (p : bool) (x : R) : nat :=
  if Rlt_dec x 1 then 0 else if Rlt_dec x 2 then 1 else if p then (if Rlt_dec x 3 then 2 else 3) else 2.
Definition hats (p : bool) : basis :=
  {| deg := 1; nbas := 4; per := p;
     ev := fun x => (hat_cell p x, fun j => match j with O => INR (hat_cell p x) + 1 - x | _ => x - INR (hat_cell p x) end);
     dv := fun x => (hat_cell p x, fun j => match j with O => -1 | _ => 1 end);
     ints := fun _ => 1 |}.
Definition hat_quad (p : bool) : list (R * R) :=
  [(1/2, 1); (3/2, 1); (5/2, 1)] ++ (if p then [(7/2, 1)] else []).

Lemma hats_basis p : bspline_basis (hats p).
Proof.
  split; [cbn; lia|]. split.
  - intros x. cbn [hats per ev dv fst nbas deg]. unfold hat_cell. destruct p;
      destruct (Rlt_dec x 1); destruct (Rlt_dec x 2); try destruct (Rlt_dec x 3); lia.
  - intros x. cbn [hats deg ev dv snd Rsum]. split; lra.
Qed.

Lemma hats_quad p : good_quadrature (hats p) (hat_quad p).
Proof.
  split.
  - intros x w Hin. unfold hat_quad in Hin. destruct p; cbn in Hin; repeat destruct Hin as [E|Hin]; try (injection E as <- <-; lra); contradiction.
  - intros c Hc.
    assert (Hd : forall x w k, In (x, w) (hat_quad p) -> hat_cell p x = k -> c ((k + 1) mod 4)%nat = c (k mod 4)%nat).
    { intros x w k Hin Hk. pose proof (Hc x w Hin) as H. rewrite dsfun_table in H by apply hats_basis.
      cbn [hats deg dv fst snd Rsum nbas] in H. rewrite Hk in H. rewrite Nat.add_0_r in H. lra. }
    assert (H0 : c 1%nat = c 0%nat).
    { apply (Hd (1/2) 1 0%nat); [left; reflexivity|]. unfold hat_cell. destruct (Rlt_dec (1/2) 1); [reflexivity|lra]. }
    assert (H1 : c 2%nat = c 1%nat).
    { apply (Hd (3/2) 1 1%nat); [right; left; reflexivity|]. unfold hat_cell. destruct (Rlt_dec (3/2) 1); [lra|]. destruct (Rlt_dec (3/2) 2); [reflexivity|lra]. }
    assert (H2 : c 3%nat = c 2%nat).
    { apply (Hd (5/2) 1 2%nat); [right; right; left; reflexivity|]. unfold hat_cell. destruct (Rlt_dec (5/2) 1); [lra|]. destruct (Rlt_dec (5/2) 2); [lra|].
      destruct p; [|reflexivity]. destruct (Rlt_dec (5/2) 3); [reflexivity|lra]. }
    intros i j Hi Hj. cbn [hats nbas] in Hi, Hj.
    assert (Ha : forall i, (i < 4)%nat -> c i = c 0%nat).
    { intros k Hk. destruct k as [|[|[|[|k]]]]; [reflexivity|exact H0|congruence|congruence|lia]. }
    rewrite (Ha i Hi), (Ha j Hj). reflexivity.
Qed.

Lemma hats_sint p : sint (hats p) (fun _ => 1) = 4.
Proof. unfold sint. cbn [hats nbas ints Rsum]. lra. Qed.

Lemma fem_periodic_inputs lapack lapackT b q swap nbatch rho_h sched grid :
  fem_inputs lapack lapackT b q nbatch sched -> per b = true ->
  fem_output b grid nbatch (fun ib c => sint b c = 0 /\
      forall v, quad q (fun x => dsfun b c x * dsfun b v x) =
                quad q (fun x => rho_h ib x * sfun b v x) - quad q (rho_h ib) / sint b (fun _ => 1) * sint b v)
    (fem_poisson lapack b q swap nbatch rho_h sched grid).
Proof. intros [HL [Hb [Hq [Hs Hp]]]] E. rewrite E in Hs. eapply fem_periodic; eauto. Qed.

Lemma fem_dirichlet_inputs lapack lapackT b q swap nbatch rho_h sched grid :
  fem_inputs lapack lapackT b q nbatch sched -> per b = false ->
  fem_output b grid nbatch (fun ib c => dirichlet b c /\ forall v, dirichlet b v -> weak b q (dsfun b c) (rho_h ib) v)
    (fem_poisson lapack b q swap nbatch rho_h sched grid).
Proof. intros [HL [Hb [Hq [Hs Hp]]]] E. rewrite E in Hs. eapply fem_dirichlet; eauto. Qed.

Lemma fem_periodic_weak lapack lapackT b q swap nbatch rho_h sched grid :
  fem_inputs lapack lapackT b q nbatch sched -> per b = true ->
  (forall i, (i < nbas b)%nat -> ints b i = quad q (bfun b i)) ->
  fem_output b grid nbatch (fun ib c => sint b c = 0 /\
      forall v, weak b q (dsfun b c) (fun x => rho_h ib x - quad q (rho_h ib) / quad q (fun _ => 1)) v)
    (fem_poisson lapack b q swap nbatch rho_h sched grid).
Proof.
  intros H E Hi. destruct (fem_periodic_inputs _ _ b q swap nbatch rho_h sched grid H E) as [o [c [Eo [L N]]]].
  exists o, c. split; [exact Eo|]. split; [exact L|]. intros ib Hib. destruct (N ib Hib) as [M S0].
  split; [exact M|]. split; [exact (proj1 S0)|]. apply weak_mean; [exact (proj1 (proj2 H))|exact Hi|exact S0].
Qed.

Lemma fem_boundary lapack lapackT b q swap nbatch rho_h sched grid :
  fem_inputs lapack lapackT b q nbatch sched -> per b = false ->
  exists out, fem_poisson lapack b q swap nbatch rho_h sched grid = Ok out /\
    forall ib k, (ib < nbatch)%nat -> (k < length grid)%nat ->
      (forall i, (0 < i < nbas b - 1)%nat -> bfun b i (nth k grid 0) = 0) ->
      fst (nth k (nth ib out []) (0, 0)) = 0.
Proof.
  intros H E. destruct (fem_dirichlet_inputs _ _ b q swap nbatch rho_h sched grid H E) as [o [c [Eo [L N]]]].
  exists o. split; [exact Eo|]. intros ib k Hib Hk Hz. destruct (N ib Hib) as [M [[D0 D1] _]]. rewrite M.
  assert (Hn : nth k (map (fun x => (sfun b (c ib) x, - dsfun b (c ib) x)) grid) (0, 0) =
     (sfun b (c ib) (nth k grid 0), - dsfun b (c ib) (nth k grid 0))).
  { apply nth_error_nth. rewrite nth_error_map, (nth_error_nth' grid 0 Hk). reflexivity. }
  rewrite Hn. cbn [fst]. unfold sfun. apply Rsum_zero. intros i Hi.
  destruct (Nat.eq_dec i 0) as [->|H0]; [rewrite D0; lra|].
  destruct (Nat.eq_dec i (nbas b - 1)) as [->|H1]; [rewrite D1; lra|].
  rewrite Hz by lia. lra.
Qed.

Lemma fem_two_functions lapack b q swap nbatch rho_h sched grid : per b = false -> nbas b = 2%nat ->
  fem_poisson lapack b q swap nbatch rho_h sched grid = AssertFail.
Proof.
  intros Hp Hn. unfold fem_poisson, build_matrix. rewrite Hp. unfold build_non_periodic_matrix. rewrite Hn.
  change (Z.of_nat 2 - 2)%Z with 0%Z. unfold make_new_banded.
  rewrite Bool.andb_false_r. replace (0 <=? 2 * Z.of_nat (deg b) + 1 + Z.of_nat (deg b))%Z with true by lia. reflexivity.
Qed.

Lemma hats_bfun p i x : bfun (hats p) i x =
  (if (hat_cell p x mod 4 =? i)%nat then INR (hat_cell p x) + 1 - x else 0) + (if ((hat_cell p x + 1) mod 4 =? i)%nat then x - INR (hat_cell p x) else 0).
Proof. unfold bfun. cbn [hats deg ev fst snd Rsum nbas]. rewrite Nat.add_0_r. lra. Qed.

Ltac cell := unfold hat_cell; repeat match goal with |- context [Rlt_dec ?a ?b] => destruct (Rlt_dec a b); try lra end.
Lemma hat_cells p : hat_cell p (1/2) = 0%nat /\ hat_cell p (3/2) = 1%nat /\ hat_cell p (5/2) = 2%nat /\ hat_cell p 0 = 0%nat.
Proof. split; [cell; reflexivity|]. split; [cell; reflexivity|]. split; [destruct p; cell; reflexivity|cell; reflexivity]. Qed.
Lemma hat_cell_last : hat_cell true (7/2) = 3%nat /\ hat_cell false 3 = 2%nat.
Proof. split; cell; reflexivity. Qed.

Lemma hats_ints i : (i < nbas (hats true))%nat -> ints (hats true) i = quad (hat_quad true) (bfun (hats true) i).
Proof.
  intros Hi. cbn [hats nbas] in Hi. unfold hat_quad. cbn [quad app hats ints].
  destruct (hat_cells true) as [E0 [E1 [E2 _]]]. destruct hat_cell_last as [E3 _].
  rewrite !hats_bfun, E0, E1, E2, E3.
  destruct i as [|[|[|[|i]]]]; try lia; cbn; lra.
Qed.
Lemma hats_ends i : (0 < i < nbas (hats false) - 1)%nat -> bfun (hats false) i 0 = 0 /\ bfun (hats false) i 3 = 0.
Proof.
  cbn [hats nbas]. intros Hi. destruct (hat_cells false) as [_ [_ [_ E0]]]. destruct hat_cell_last as [_ E3].
  rewrite !hats_bfun, E0, E3. destruct i as [|[|[|i]]]; try lia; cbn; split; lra.
Qed.

(** a discrete solution: rho = 2 on [0,1) and (1,2], zero elsewhere *)
Lemma hats_solution : weak_solution (hats false) (hat_quad false) (fun x => if Rlt_dec x 2 then 6 else 0)
    (fun i => match i with 1%nat => 5 | 2%nat => 4 | _ => 0 end).
Proof.
  unfold weak_solution. cbn [hats per]. split; [split; reflexivity|]. intros v [V0 V1]. cbn [hats nbas Nat.sub] in V1.
  unfold weak, hat_quad. cbn [app quad].
  rewrite !(sfun_table (hats false)), !(dsfun_table (hats false)) by apply hats_basis. cbn [hats deg dv ev fst snd Rsum nbas].
  destruct (hat_cells false) as [E0 [E1 [E2 _]]]. rewrite E0, E1, E2.
  destruct (Rlt_dec (1/2) 2); [|lra]. destruct (Rlt_dec (3/2) 2); [|lra]. destruct (Rlt_dec (5/2) 2); [lra|].
  cbn. rewrite V0, V1. lra.
Qed.
