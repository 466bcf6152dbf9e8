(** The spectral solver of the 2d2v simulation solves the Poisson equation. *)
From Coq Require Import Lia Lra ZifyBool.
From Verif Require Import FftModel FftSpec FftMain FftSolve FftLoop XyvFftModel XyvFft PpfVolume.
Open Scope R_scope.

Lemma grid_list_nth nx ny f i j : (i < nx)%nat -> (j < ny)%nat -> nth (i * ny + j) (grid_list nx ny f) 0 = f [Z.of_nat i; Z.of_nat j].
Proof. intros Hi Hj. unfold grid_list. apply (flat_nth (fun i j => f [Z.of_nat i; Z.of_nat j])); auto. Qed.

Theorem landau_field clobber nx ny dx dy m0 c0 f0 x0 y0 rho ws : (2 <= nx)%nat -> (2 <= ny)%nat -> 0 < dx -> 0 < dy ->
  let Ns := [Z.of_nat nx; Z.of_nat ny] in
  let Ls := [IZR (Z.of_nat nx) * dx; IZR (Z.of_nat ny) * dy] in
  let pt i j := [x0 + IZR (Z.of_nat i) * dx; y0 + IZR (Z.of_nat j) * dy] in
  Forall (resolved Ns) ws ->
  (forall i j, (i < nx)%nat -> (j < ny)%nat -> nth (i * ny + j) rho 0 = field_at Ls [x0; y0] ws (pt i j)) ->
  exists phi ex ey Phi grad hess,
    fft_poisson clobber nx ny dx dy m0 c0 f0 rho = Ok (phi, (ex, ey)) /\
    poisson 2 (field_at Ls [x0; y0] ws) (mean Ns (of_list ny rho)) Phi grad hess /\ periodic Ls Phi /\
    (forall i j, (i < nx)%nat -> (j < ny)%nat -> nth (i * ny + j) phi 0 = Phi (pt i j)) /\
    (Forall (resolved_strictly 0 Ns) ws -> forall i j, (i < nx)%nat -> (j < ny)%nat -> nth (i * ny + j) ex 0 = - grad 0%nat (pt i j)) /\
    (Forall (resolved_strictly 1 Ns) ws -> forall i j, (i < nx)%nat -> (j < ny)%nat -> nth (i * ny + j) ey 0 = - grad 1%nat (pt i j)).
Proof.
  intros Hx Hy Dx Dy Ns Ls pt HR HV.
  set (ds := [ {| d_n := Z.of_nat nx; d_dx := dx |}; {| d_n := Z.of_nat ny; d_dx := dy |} ]).
  unfold fft_poisson. fold ds. cbv zeta.
  destruct (solve_phi_E clobber ds 1 0 [(0%nat, 1%nat); (1%nat, 2%nat)] 3 (put m0 3 0 (of_list ny rho) (sizes ds), c0, f0)) as [[m c] f] eqn:E.
  assert (IN : forall i j, (i < nx)%nat -> (j < ny)%nat -> In [Z.of_nat i; Z.of_nat j] (all_indices (map d_n ds))).
  { intros i j Hi Hj. cbn [ds map all_indices d_n]. apply in_flat_map. exists i. split; [apply in_seq; lia|]. apply in_map.
    apply in_flat_map. exists j. split; [apply in_seq; lia|]. left. reflexivity. }
  assert (RD : forall n, In n (all_indices (map d_n ds)) -> put m0 3 0 (of_list ny rho) (sizes ds) 3%nat 0%nat n = of_list ny rho n).
  { intros n Hn. apply in_indices in Hn. unfold put. cbn [Nat.eqb andb]. fold (sizes ds) in Hn. rewrite Hn. reflexivity. }
  assert (A1 : ds <> []) by discriminate.
  assert (A2 : Forall (fun d => (2 <= d_n d)%Z /\ 0 < d_dx d) ds).
  { constructor; [cbn; split; [lia|lra]|]. constructor; [cbn; split; [lia|lra]|]. constructor. }
  assert (A3 : NoDup (0%nat :: map snd [(0%nat, 1%nat); (1%nat, 2%nat)])) by (repeat constructor; cbn; intuition lia).
  assert (A4 : forall j loc : nat, In (j, loc) [(0%nat, 1%nat); (1%nat, 2%nat)] -> (j < length ds)%nat).
  { cbn. intros j loc [Q|[Q|[]]]; injection Q as <- <-; lia. }
  pose proof (solver_phi_E clobber ds [x0; y0] 1 0 [(0%nat, 1%nat); (1%nat, 2%nat)] 3 (put m0 3 0 (of_list ny rho) (sizes ds)) c0 f0 m c f (fun _ => ws)
    A1 A2 eq_refl A3 A4) as T. cbv beta in T.
  destruct (fun H => T H E 0%nat ltac:(lia)) as (Phi & grad & hess & HP & PER & V & _ & EV).
  - intros b Hb. split; [exact HR|]. intros n Hn. assert (b = 0)%nat by lia. subst b. rewrite RD by exact Hn.
    cbn [ds map all_indices d_n] in Hn. apply in_flat_map in Hn. destruct Hn as [i [Hi Hn]]. apply in_map_iff in Hn. destruct Hn as [n' [<- Hn]].
    apply in_flat_map in Hn. destruct Hn as [j [Hj Hn]]. destruct Hn as [<-|[]]. apply in_seq in Hi. apply in_seq in Hj. cbn [d_n] in Hi, Hj. rewrite ?Nat2Z.id in Hi. rewrite ?Nat2Z.id in Hj. cbn [of_list]. rewrite !Nat2Z.id. apply HV; [clear - Hi; lia|clear - Hj; lia].
  - exists (grid_list nx ny (m 0%nat 0%nat)), (grid_list nx ny (m 1%nat 0%nat)), (grid_list nx ny (m 2%nat 0%nat)), Phi, grad, hess.
    split; [reflexivity|]. split.
    { replace (mean Ns (of_list ny rho)) with (mean (map d_n ds) (put m0 3 0 (of_list ny rho) (sizes ds) 3%nat 0%nat)); [exact HP|].
      change Ns with (map d_n ds). unfold mean. f_equal. unfold total. 
      assert (G : forall l, (forall n, In n l -> In n (all_indices (map d_n ds))) ->
        fold_right (fun n acc => put m0 3 0 (of_list ny rho) (sizes ds) 3%nat 0%nat n + acc) 0 l = fold_right (fun n acc => of_list ny rho n + acc) 0 l).
      { induction l as [|n l IH]; intros Hl; cbn [fold_right]; [reflexivity|]. rewrite RD, IH; auto; [intros; apply Hl; right; auto|apply Hl; left; reflexivity]. }
      apply G. auto. }
    split; [exact PER|]. split; [|split].
    + intros i j Hi Hj. rewrite grid_list_nth by auto. apply V. auto.
    + intros HS i j Hi Hj. rewrite grid_list_nth by auto. apply (EV 0%nat 1%nat); auto. left. reflexivity.
    + intros HS i j Hi Hj. rewrite grid_list_nth by auto. apply (EV 1%nat 2%nat); auto. right. left. reflexivity.
Qed.
