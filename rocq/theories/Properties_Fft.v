(** C55: the spectral Poisson solver. *)
From Verif Require Import FftModel FftSpec FftMain FftSolve FftLoop.
Open Scope R_scope.

(** [ds]: sizes and steps of the periodic grid; period N dx in each direction *)
Local Notation periods ds := (map (fun d => IZR (d_n d) * d_dx d) ds).
Local Notation dxs ds := (map d_dx ds).
Local Notation grid ds := (all_indices (map d_n ds)).
Local Notation regular ds := (Forall (fun d => (2 <= d_n d)%Z /\ 0 < d_dx d) ds).

(** Potential and electric field, for any number of dimensions and batches: if the density of batch b is
    made of waves resolved by the grid, phi is at every grid point the zero-mean periodic solution of
    -Laplacian phi = rho - mean(rho) and, in the directions where no wave is at the Nyquist frequency,
    E = - grad phi.  The array of rho may be the array of phi or of a component of E; the transforms may
    destroy their input buffers. *)
Theorem C55_potential_and_field : forall clobber ds x0 nb phi E rho m0 c0 f0 m c f (ws : nat -> list wave),
  ds <> [] -> regular ds -> length x0 = length ds ->
  NoDup (phi :: map snd E) -> (forall j loc, In (j, loc) E -> (j < length ds)%nat) ->
  (forall b, (b < nb)%nat -> Forall (resolved (map d_n ds)) (ws b) /\
     forall n, In n (grid ds) -> m0 rho b n = field_at (periods ds) x0 (ws b) (point x0 (dxs ds) n)) ->
  solve_phi_E clobber ds nb phi E rho (m0, c0, f0) = (m, c, f) ->
  forall b, (b < nb)%nat ->
  exists Phi grad hess,
    poisson (length ds) (field_at (periods ds) x0 (ws b)) (mean (map d_n ds) (m0 rho b)) Phi grad hess /\
    periodic (periods ds) Phi /\
    (forall n, In n (grid ds) -> m phi b n = Phi (point x0 (dxs ds) n)) /\
    total (map d_n ds) (m phi b) = 0 /\
    (forall j loc, In (j, loc) E -> Forall (resolved_strictly j (map d_n ds)) (ws b) ->
       forall n, In n (grid ds) -> m loc b n = - grad j (point x0 (dxs ds) n)).
Proof. exact solver_phi_E. Qed.
Print Assumptions C55_potential_and_field.

(** the overload without electric field *)
Theorem C55_potential : forall clobber ds x0 nb phi rho m0 c0 m c (ws : nat -> list wave),
  ds <> [] -> regular ds -> length x0 = length ds ->
  (forall b, (b < nb)%nat -> Forall (resolved (map d_n ds)) (ws b) /\
     forall n, In n (grid ds) -> m0 rho b n = field_at (periods ds) x0 (ws b) (point x0 (dxs ds) n)) ->
  solve_phi clobber ds nb phi rho (m0, c0) = (m, c) ->
  forall b, (b < nb)%nat ->
  exists Phi grad hess,
    poisson (length ds) (field_at (periods ds) x0 (ws b)) (mean (map d_n ds) (m0 rho b)) Phi grad hess /\
    periodic (periods ds) Phi /\
    (forall n, In n (grid ds) -> m phi b n = Phi (point x0 (dxs ds) n)) /\
    total (map d_n ds) (m phi b) = 0.
Proof. exact solver_phi. Qed.
Print Assumptions C55_potential.

(** no density is left out: every array is made of resolved waves, strictly resolved in the directions
    with an odd number of points *)
Theorem C55_every_density : forall ds x0 rho, regular ds -> length x0 = length ds ->
  exists ws, Forall (resolved (map d_n ds)) ws /\
    (forall n, In n (grid ds) -> rho n = field_at (periods ds) x0 ws (point x0 (dxs ds) n)) /\
    (forall j, (j < length ds)%nat -> (nth j (map d_n ds) 0 mod 2 = 1)%Z -> Forall (resolved_strictly j (map d_n ds)) ws).
Proof. exact every_array. Qed.
Print Assumptions C55_every_density.

(** explicit values for one wave: phi = rho/k^2 and E = k/k^2 sin *)
Theorem C55_one_wave : forall clobber ds x0 phi E rho m0 c0 f0 m c f w,
  ds <> [] -> regular ds -> length x0 = length ds ->
  NoDup (phi :: map snd E) -> (forall j loc, In (j, loc) E -> (j < length ds)%nat) ->
  resolved (map d_n ds) w -> number w <> map (fun _ => 0%Z) ds ->
  (forall n, In n (grid ds) -> m0 rho 0%nat n = wave_at (periods ds) x0 w (point x0 (dxs ds) n)) ->
  solve_phi_E clobber ds 1 phi E rho (m0, c0, f0) = (m, c, f) ->
  forall n, In n (grid ds) ->
    let theta := angle (periods ds) x0 (number w) (point x0 (dxs ds) n) + shift w in
    let k j := 2 * PI * IZR (nth j (number w) 0%Z) / nth j (periods ds) 0 in
    let k2 := Rsum (length ds) (fun j => k j ^ 2) in
    m phi 0%nat n = amplitude w / k2 * cos theta /\
    forall j loc, In (j, loc) E -> resolved_strictly j (map d_n ds) w ->
      m loc 0%nat n = amplitude w / k2 * k j * sin theta.
Proof. exact one_wave. Qed.
Print Assumptions C55_one_wave.

(** nothing else is written: other arrays, other batches *)
Theorem C55_frame : forall clobber ds nb phi E rho m0 c0 f0 m c f,
  NoDup (phi :: map snd E) -> (forall j loc, In (j, loc) E -> (j < length ds)%nat) ->
  solve_phi_E clobber ds nb phi E rho (m0, c0, f0) = (m, c, f) ->
  forall l b n, ~ In l (phi :: map snd E) \/ (nb <= b)%nat -> m l b n = m0 l b n.
Proof. exact untouched. Qed.
Print Assumptions C55_frame.

(** the symbol of the Laplacian vanishes at no frequency by which the solver divides *)
Theorem C55_division_defined : forall ds k, regular ds ->
  In k (all_indices (half (map d_n ds))) -> k <> map (fun _ => 0%Z) ds -> get_laplace_operator ds k <> 0.
Proof. exact division_defined. Qed.
Print Assumptions C55_division_defined.

(** Finding: with an even number of points in a direction other than the last, a component of the density at
    the Nyquist frequency of that direction gives a spurious electric field: the frequency N/2 has the
    coordinate -N/2 alone.  2 x 4 points, rho(x, y) = cos(pi x) cos(pi y / 2): the exact E_x vanishes at
    the grid point (0, 1), the computed one does not. *)
Theorem C55_nyquist_refuted : forall clobber m0 c0 f0,
  (forall n, In n (all_indices [2; 4]%Z) -> m0 0%nat 0%nat n = field_at [2; 4] [0; 0] nyq_waves (point [0; 0] [1; 1] n)) ->
  exists m c f, solve_phi_E clobber nyq_dims 1 1 [(0%nat, 2%nat); (1%nat, 3%nat)] 0 (m0, c0, f0) = (m, c, f) /\
  m 2%nat 0%nat [0; 1]%Z <> 0 /\
  exists Phi grad hess, poisson 2 (field_at [2; 4] [0; 0] nyq_waves) 0 Phi grad hess /\ grad 0%nat (point [0; 0] [1; 1] [0; 1]%Z) = 0.
Proof. exact nyquist. Qed.
Print Assumptions C55_nyquist_refuted.

(** the hypotheses are met: 3 x 4 points, two batches, density 2 cos(2 pi x / 3 + pi y / 2) + 5 in both, rho and
    phi in the same array 1, E in the arrays 2 and 3 *)
Definition ex_dims : list dim := [ {| d_n := 3; d_dx := 1 |}; {| d_n := 4; d_dx := 1 |} ].
Definition ex_waves : list wave :=
  [ {| amplitude := 2; number := [1; 1]%Z; shift := 0 |}; {| amplitude := 5; number := [0; 0]%Z; shift := 0 |} ].
Definition ex_mem : memory := fun _ _ n => field_at (periods ex_dims) [0; 0] ex_waves (point [0; 0] (dxs ex_dims) n).
Example C55_ex : forall clobber c0 f0, exists m c f,
  solve_phi_E clobber ex_dims 2 1 [(0%nat, 2%nat); (1%nat, 3%nat)] 1 (ex_mem, c0, f0) = (m, c, f) /\
  forall b, (b < 2)%nat -> exists Phi grad hess,
    poisson 2 (field_at (periods ex_dims) [0; 0] ex_waves) (mean [3; 4]%Z (ex_mem 1%nat b)) Phi grad hess /\
    (forall n, In n (grid ex_dims) -> m 1%nat b n = Phi (point [0; 0] (dxs ex_dims) n)) /\
    (forall n, In n (grid ex_dims) -> m 2%nat b n = - grad 0%nat (point [0; 0] (dxs ex_dims) n)) /\
    (forall n, In n (grid ex_dims) -> m 3%nat b n = - grad 1%nat (point [0; 0] (dxs ex_dims) n)).
Proof.
  intros. destruct (solve_phi_E clobber ex_dims 2 1 [(0%nat, 2%nat); (1%nat, 3%nat)] 1 (ex_mem, c0, f0)) as [[m c] f] eqn:E.
  exists m, c, f. split; [reflexivity|]. intros b Hb.
  destruct (C55_potential_and_field clobber ex_dims [0; 0] 2 1 [(0%nat, 2%nat); (1%nat, 3%nat)] 1 ex_mem c0 f0 m c f (fun _ => ex_waves)) with (b := b)
    as [Phi [grad [hess [P [_ [Q [_ R]]]]]]]; auto.
  - discriminate.
  - repeat constructor; cbn; lra || lia.
  - repeat constructor; cbn; intuition lia.
  - cbn. intros j loc [H|[H|[]]]; injection H as <- <-; lia.
  - intros b' _. split; [repeat constructor; cbn; lia|]. reflexivity.
  - exists Phi, grad, hess. split; [exact P|]. split; [exact Q|]. split; apply R.
    + left; reflexivity.
    + repeat constructor; cbn; lia.
    + right; left; reflexivity.
    + repeat constructor; cbn; lia.
Qed.
Example C55_nyquist_ex : exists m0 : memory, forall n, In n (all_indices [2; 4]%Z) ->
  m0 0%nat 0%nat n = field_at [2; 4] [0; 0] nyq_waves (point [0; 0] [1; 1] n).
Proof. exists (fun _ _ n => field_at [2; 4] [0; 0] nyq_waves (point [0; 0] [1; 1] n)). reflexivity. Qed.
