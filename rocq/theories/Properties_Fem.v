(** C60, C61: the one-dimensional finite element Poisson solver. *)
From Coq Require Import Permutation.
From Verif Require Import Lib DerivModel QuadModel MatrixModel MatrixSpec MatrixSolveModel MatrixLinkModel MatrixOracle
  FemModel FemSpec FemAsm FemForm FemSolve FemMain FemExtra.
Open Scope R_scope.

(** ** C60: the potential is the Galerkin solution, the field is minus its derivative *)
Theorem C60_periodic :
  forall lapack lapackT b q swap nbatch rho_h sched grid,
  fem_inputs lapack lapackT b q nbatch sched -> per b = true ->
  fem_output b grid nbatch (fun ib c => sint b c = 0 /\
      forall v, quad q (fun x => dsfun b c x * dsfun b v x) =
                quad q (fun x => rho_h ib x * sfun b v x) - quad q (rho_h ib) / sint b (fun _ => 1) * sint b v)
    (fem_poisson lapack b q swap nbatch rho_h sched grid).
Proof. exact fem_periodic_inputs. Qed.
Print Assumptions C60_periodic.

(** When the stored integrals are those of the quadrature, the weak form of
    -phi'' = rho - mean(rho) holds against every function of the space. *)
Theorem C60_periodic_weak :
  forall lapack lapackT b q swap nbatch rho_h sched grid,
  fem_inputs lapack lapackT b q nbatch sched -> per b = true ->
  (forall i, (i < nbas b)%nat -> ints b i = quad q (bfun b i)) ->
  fem_output b grid nbatch (fun ib c => sint b c = 0 /\
      forall v, weak b q (dsfun b c) (fun x => rho_h ib x - quad q (rho_h ib) / quad q (fun _ => 1)) v)
    (fem_poisson lapack b q swap nbatch rho_h sched grid).
Proof. exact fem_periodic_weak. Qed.
Print Assumptions C60_periodic_weak.

Theorem C60_dirichlet :
  forall lapack lapackT b q swap nbatch rho_h sched grid,
  fem_inputs lapack lapackT b q nbatch sched -> per b = false ->
  fem_output b grid nbatch (fun ib c => dirichlet b c /\
      forall v, dirichlet b v -> weak b q (dsfun b c) (rho_h ib) v)
    (fem_poisson lapack b q swap nbatch rho_h sched grid).
Proof. exact fem_dirichlet_inputs. Qed.
Print Assumptions C60_dirichlet.

(** The potential vanishes at every grid point where no interior function lives (the ends
    of the domain for clamped knots). *)
Theorem C60_dirichlet_boundary :
  forall lapack lapackT b q swap nbatch rho_h sched grid,
  fem_inputs lapack lapackT b q nbatch sched -> per b = false ->
  exists out, fem_poisson lapack b q swap nbatch rho_h sched grid = Ok out /\
    forall ib k, (ib < nbatch)%nat -> (k < length grid)%nat ->
      (forall i, (0 < i < nbas b - 1)%nat -> bfun b i (nth k grid 0) = 0) ->
      fst (nth k (nth ib out []) (0, 0)) = 0.
Proof. exact fem_boundary. Qed.
Print Assumptions C60_dirichlet_boundary.

(** Finding: with a single cell of degree 1 there is no unknown left and the constructor
    fails on an assertion instead of returning phi = 0. *)
Theorem C60_no_interior_function_refuted :
  forall lapack b q swap nbatch rho_h sched grid, per b = false -> nbas b = 2%nat ->
  fem_poisson lapack b q swap nbatch rho_h sched grid = AssertFail.
Proof. exact fem_two_functions. Qed.
Print Assumptions C60_no_interior_function_refuted.

(** ** C61: consequences: determinism, linearity, exactness, best approximation *)
(** The output of a batch depends only on its own right-hand side at the quadrature points:
    not on the order of the atomic additions, the other batches, the number of batches, the
    LAPACK implementation or the initial content of the scratch array. *)
Theorem C61_determined :
  forall b q grid lapack1 lapackT1 lapack2 lapackT2 swap1 swap2 nb1 nb2 rho1 rho2 sched1 sched2,
  fem_inputs lapack1 lapackT1 b q nb1 sched1 -> fem_inputs lapack2 lapackT2 b q nb2 sched2 ->
  exists out1 out2,
    fem_poisson lapack1 b q swap1 nb1 rho1 sched1 grid = Ok out1 /\
    fem_poisson lapack2 b q swap2 nb2 rho2 sched2 grid = Ok out2 /\
    forall ib1 ib2, (ib1 < nb1)%nat -> (ib2 < nb2)%nat ->
      (forall x w, In (x, w) q -> rho1 ib1 x = rho2 ib2 x) -> nth ib1 out1 [] = nth ib2 out2 [].
Proof. exact fem_determined. Qed.
Print Assumptions C61_determined.

Theorem C61_linear :
  forall b q grid lapack lapackT swap nbatch sched rho1 rho2 a,
  fem_inputs lapack lapackT b q nbatch sched ->
  exists out1 out2 out,
    fem_poisson lapack b q swap nbatch rho1 sched grid = Ok out1 /\
    fem_poisson lapack b q swap nbatch rho2 sched grid = Ok out2 /\
    fem_poisson lapack b q swap nbatch (fun ib x => a * rho1 ib x + rho2 ib x) sched grid = Ok out /\
    forall ib k, (ib < nbatch)%nat -> (k < length grid)%nat ->
      let v o := nth k (nth ib o []) (0, 0) in
      fst (v out) = a * fst (v out1) + fst (v out2) /\ snd (v out) = a * snd (v out1) + snd (v out2).
Proof. exact fem_linear. Qed.
Print Assumptions C61_linear.

(** A discrete solution is unique: if the exact solution lies in the space, it is returned. *)
Theorem C61_exact :
  forall b q grid lapack lapackT swap nbatch sched rho (u : nat -> nat -> R),
  fem_inputs lapack lapackT b q nbatch sched ->
  (forall ib, (ib < nbatch)%nat -> weak_solution b q (rho ib) (u ib)) ->
  exists out, fem_poisson lapack b q swap nbatch rho sched grid = Ok out /\
    forall ib, (ib < nbatch)%nat -> nth ib out [] = map (fun x => (sfun b (u ib) x, - dsfun b (u ib) x)) grid.
Proof. exact fem_exact. Qed.
Print Assumptions C61_exact.

(** Whatever the exact solution (derivative du), no function of the space that vanishes at
    the ends has a derivative closer to du at the quadrature points. *)
Theorem C61_best_dirichlet :
  forall b q grid lapack lapackT swap nbatch sched rho (du : nat -> R -> R),
  fem_inputs lapack lapackT b q nbatch sched -> per b = false ->
  (forall ib v, (ib < nbatch)%nat -> dirichlet b v -> weak b q (du ib) (rho ib) v) ->
  fem_output b grid nbatch (fun ib c => dirichlet b c /\ forall d, dirichlet b d ->
      quad q (fun x => (du ib x - dsfun b c x) ^ 2) <= quad q (fun x => (du ib x - dsfun b d x) ^ 2))
    (fem_poisson lapack b q swap nbatch rho sched grid).
Proof. exact fem_best. Qed.
Print Assumptions C61_best_dirichlet.

Theorem C61_best_periodic :
  forall b q grid lapack lapackT swap nbatch sched rho (du : nat -> R -> R),
  fem_inputs lapack lapackT b q nbatch sched -> per b = true ->
  (forall i, (i < nbas b)%nat -> ints b i = quad q (bfun b i)) ->
  (forall ib v, (ib < nbatch)%nat -> weak b q (du ib) (fun x => rho ib x - quad q (rho ib) / quad q (fun _ => 1)) v) ->
  fem_output b grid nbatch (fun ib c => sint b c = 0 /\ forall d,
      quad q (fun x => (du ib x - dsfun b c x) ^ 2) <= quad q (fun x => (du ib x - dsfun b d x) ^ 2))
    (fem_poisson lapack b q swap nbatch rho sched grid).
Proof. exact fem_best_per. Qed.
Print Assumptions C61_best_periodic.

(** Hat functions on unit cells: the hypotheses hold (periodic and Dirichlet), for any number
    of batches and e.g. the reversed order of the additions; the stored integrals are those of
    the quadrature, and the two outer hats are the only ones at the ends. *)
Example C60_example :
  forall p nbatch,
  fem_inputs exact_lapack exact_lapackT (hats p) (hat_quad p) nbatch (rev (all_tasks (hats p) (hat_quad p) nbatch)) /\
  (forall i, (i < nbas (hats true))%nat -> ints (hats true) i = quad (hat_quad true) (bfun (hats true) i)) /\
  (forall i, (0 < i < nbas (hats false) - 1)%nat -> bfun (hats false) i 0 = 0 /\ bfun (hats false) i 3 = 0).
Proof.
  intros p nbatch. split; [|split; [exact hats_ints|exact hats_ends]].
  split; [exact exact_lapack_correct|]. split; [apply hats_basis|]. split; [apply hats_quad|].
  split; [|apply Permutation_sym, Permutation_rev].
  destruct p; cbn [hats per]; [rewrite hats_sint; lra|cbn; lia].
Qed.

(** C61: with hats on 0, 1, 2, 3 and rho = 6 on [0,2), 0 on [2,3], a discrete solution
    (0, 5, 4, 0), hence the returned one. *)
Example C61_example :
  weak_solution (hats false) (hat_quad false) (fun x => if Rlt_dec x 2 then 6 else 0)
    (fun i => match i with 1%nat => 5 | 2%nat => 4 | _ => 0 end).
Proof. exact hats_solution. Qed.
