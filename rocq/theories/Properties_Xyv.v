(** Properties C99-C101: the 2d2v Vlasov-Poisson code on MPI ranks (charge density, split Vlasov solver,
    predictor-corrector run). *)
From Verif Require Import FftSpec XyvField XyvFftModel XyvSpec XyvRange XyvVlasov XyvDensity XyvRun XyvMain.
Open Scope R_scope.

(** C99: every rank gets the sum over the whole velocity grid, whatever the distribution of the velocities; the
    charge of an adiabatic species is added once per rank. *)
Theorem C99_mpi_density : forall g P lv charges masses ielec w quad f F,
  good_setup g P -> layout_ranges g V2DSplit P lv -> good_species g charges masses ielec ->
  buffer_holds (sub_range [GVX; GVY] g) quad (fun idx => w (idx GVX) (idx GVY)) -> holds_field P lv f F ->
  exists rho, mpi_charge_density g P lv charges quad f = Ok (repeat rho P) /\
    buffer_holds (sub_range [GX; GY] g) rho (fun idx =>
      kinetic_density g charges w F (idx GX) (idx GY) + INR P * adiabatic_charge g charges).
Proof. exact density_mpi. Qed.
Print Assumptions C99_mpi_density.

(** The calculator without MPI on the whole distribution function gives the charge density. *)
Theorem C99_serial_density : forall g P charges masses ielec w quad f F,
  good_setup g P -> good_species g charges masses ielec ->
  buffer_holds (sub_range [GVX; GVY] g) quad (fun idx => w (idx GVX) (idx GVY)) -> buffer_holds (whole g) f F ->
  exists rho, charge_density_xy charges (whole g) (sub_range [GVX; GVY] g) quad f = Ok rho /\
    buffer_holds (sub_range [GX; GY] g) rho (fun idx => density g charges w F (idx GX) (idx GY)).
Proof. exact serial_density. Qed.
Print Assumptions C99_serial_density.

(** Without adiabatic species the result of the ranks is the one of the serial code. *)
Theorem C99_no_adiabatic_agrees : forall g P lv charges masses ielec w quad f f1 F,
  good_setup g P -> layout_ranges g V2DSplit P lv -> good_species g charges masses ielec ->
  (fst (select SP g) + Z.of_nat (count g SP) = Z.of_nat (length charges))%Z ->
  buffer_holds (sub_range [GVX; GVY] g) quad (fun idx => w (idx GVX) (idx GVY)) -> holds_field P lv f F ->
  buffer_holds (whole g) f1 F ->
  exists rho, mpi_charge_density g P lv charges quad f = Ok (repeat rho P) /\
    charge_density_xy charges (whole g) (sub_range [GVX; GVY] g) quad f1 = Ok rho.
Proof. exact density_agrees. Qed.
Print Assumptions C99_no_adiabatic_agrees.

(** Finding: MpiChargeDensityCalculator sums over the ranks densities to which the local calculator has already
    added the charge of the adiabatic species: with P ranks it is counted P times (one kinetic species and an
    adiabatic one, as in the Landau simulation, on 2 ranks). *)
Theorem C99_adiabatic_once_refuted : exists g P lv charges masses ielec w quad f F rho,
  good_setup g P /\ layout_ranges g V2DSplit P lv /\ good_species g charges masses ielec /\
  buffer_holds (sub_range [GVX; GVY] g) quad (fun idx => w (idx GVX) (idx GVY)) /\ holds_field P lv f F /\
  mpi_charge_density g P lv charges quad f = Ok (repeat rho P) /\
  ~ buffer_holds (sub_range [GX; GY] g) rho (fun idx => density g charges w F (idx GX) (idx GY)).
Proof. exact adiabatic_twice. Qed.
Print Assumptions C99_adiabatic_once_refuted.

Example C99_case : good_setup ex_g 2 /\ layout_ranges ex_g V2DSplit 2 (ex_local V2DSplit) /\
  good_species ex_g ex_charges ex_masses 0 /\
  buffer_holds (sub_range [GVX; GVY] ex_g) ex_quad (fun idx => (fun _ _ => 1) (idx GVX) (idx GVY)) /\
  holds_field 2 (ex_local V2DSplit) ex_bufs ex_F /\
  ex_local V2DSplit 1 = [(SP, (0%Z, 1%nat)); (GVX, (1%Z, 1%nat)); (GVY, (0%Z, 2%nat)); (GX, (0%Z, 2%nat)); (GY, (0%Z, 2%nat))].
Proof.
  split; [exact ex_setup|]. split; [apply ex_ranges; auto|]. split; [exact ex_species|].
  split; [exact ex_quad_holds|]. split; [exact ex_holds|reflexivity].
Qed.
Example C99_case_species : good_species ex_g [-1] [1] 0 /\
  (fst (select SP ex_g) + Z.of_nat (count ex_g SP) = Z.of_nat (length [-1]))%Z.
Proof. unfold good_species. cbn. lia. Qed.

(** C100: the MPI split Vlasov solver on any number of ranks moves the distribution function by the symmetric
    splitting x/2, y/2, vx/2, vy, vx/2, y/2, x/2 (and never fails). *)
Theorem C100_mpi_vlasov : forall (C : Type) g P lx lv, good_setup g P ->
  layout_ranges g X2DSplit P lx -> layout_ranges g V2DSplit P lv ->
  forall charges masses ielec, good_species g charges masses ielec ->
  forall (itp : nat -> interpolator C) coordinate uninit efield Ex Ey dt f F,
  all_ranks_hold P g (map fst efield) Ex -> all_ranks_hold P g (map snd efield) Ey -> holds_field P lv f F ->
  exists f', mpi_split_vlasov g P lx lv charges masses ielec itp coordinate uninit efield dt f = Ok f' /\
    holds_field P lv f' (vlasov_step g itp coordinate charges masses ielec Ex Ey dt F).
Proof. exact @mpi_vlasov. Qed.
Print Assumptions C100_mpi_vlasov.

(** It computes what the solver without MPI computes on the whole distribution function. *)
Theorem C100_serial_agrees : forall (C : Type) g P lx lv charges masses ielec (itp : nat -> interpolator C) coordinate uninit
    efield ex ey Ex Ey dt f f1 F,
  good_setup g P -> layout_ranges g X2DSplit P lx -> layout_ranges g V2DSplit P lv -> good_species g charges masses ielec ->
  all_ranks_hold P g (map fst efield) Ex -> all_ranks_hold P g (map snd efield) Ey ->
  buffer_holds (sub_range [GX; GY] g) ex Ex -> buffer_holds (sub_range [GX; GY] g) ey Ey ->
  holds_field P lv f F -> buffer_holds (whole g) f1 F ->
  exists f' f1' F', mpi_split_vlasov g P lx lv charges masses ielec itp coordinate uninit efield dt f = Ok f' /\
    split_vlasov_xy g charges masses ielec itp coordinate (whole g) (sub_range [GX; GY] g) (ex, ey) dt f1 = Ok f1' /\
    holds_field P lv f' F' /\ buffer_holds (whole g) f1' F'.
Proof. exact vlasov_agrees. Qed.
Print Assumptions C100_serial_agrees.

Example C100_case : layout_ranges ex_g X2DSplit 2 (ex_local X2DSplit) /\
  all_ranks_hold 2 ex_g (map fst (repeat ([1; 2; 3; 4], [5; 6; 7; 8]) 2)) (grid_value ex_g [1; 2; 3; 4]) /\
  all_ranks_hold 2 ex_g (map snd (repeat ([1; 2; 3; 4], [5; 6; 7; 8]) 2)) (grid_value ex_g [5; 6; 7; 8]) /\
  buffer_holds (sub_range [GX; GY] ex_g) [1; 2; 3; 4] (grid_value ex_g [1; 2; 3; 4]) /\
  exists f1, buffer_holds (whole ex_g) f1 ex_F.
Proof.
  split; [apply ex_ranges; auto|].
  assert (A : forall l, length l = 4%nat -> buffer_holds (sub_range [GX; GY] ex_g) l (grid_value ex_g l)).
  { intros l L. apply grid_value_holds. rewrite L. reflexivity. }
  split; [|split; [|split]].
  - split; [reflexivity|]. intros b Hb. cbn in Hb. destruct Hb as [<-|[<-|[]]]; apply A; reflexivity.
  - split; [reflexivity|]. intros b Hb. cbn in Hb. destruct Hb as [<-|[<-|[]]]; apply A; reflexivity.
  - apply A; reflexivity.
  - destruct (world_holds 1 (fun _ => whole ex_g) ex_F) as [_ H].
    + intros r Hr. apply xy_nodup. apply ex_setup.
    + intros r i j Hr H. unfold ex_F. rewrite !H by (cbn; tauto). reflexivity.
    + destruct (H 0%nat ltac:(lia)) as (b & _ & Hb). exists b. exact Hb.
Qed.

(** C101: a run outputs, whatever the number of ranks, the states and potentials of the predictor-corrector scheme
    at the times n dt, n = 0 .. steps, the last one marked as such.  With an adiabatic species this needs a Poisson
    solver for which a constant of the charge density does not count. *)
Theorem C101_run : forall (C : Type) g P lx lv charges masses ielec (itp : nat -> interpolator C) coordinate quad w solve uninit dt steps f F,
  good_setup g P -> layout_ranges g X2DSplit P lx -> layout_ranges g V2DSplit P lv -> good_species g charges masses ielec ->
  buffer_holds (sub_range [GVX; GVY] g) quad (fun idx => w (idx GVX) (idx GVY)) ->
  good_solver g solve -> adiabatic_charge g charges = 0 \/ ignores_constants g solve ->
  holds_field P lv f F ->
  let F_at n := run g itp coordinate charges masses ielec w solve dt n F in
  exists f' evs, predcorr_xy g P lx lv charges masses ielec quad itp coordinate uninit solve dt steps f = Ok (f', evs) /\
    holds_field P lv f' (F_at (Z.to_nat steps)) /\
    length evs = S (Z.to_nat steps) /\
    forall n, (n <= Z.to_nat steps)%nat -> exists ev, nth_error evs n = Some ev /\
      event_shows P lv ev (Nat.eqb n (Z.to_nat steps)) n dt (F_at n) (fst (fields_of g charges w solve (F_at n))).
Proof. exact run_any. Qed.
Print Assumptions C101_run.

(** The spectral solver of the shipped simulation is such a solver. *)
Theorem C101_landau_solver : forall g P clobber dx dy m0 c0 f0, good_setup g P ->
  let solve := fft_poisson clobber (count g GX) (count g GY) dx dy m0 c0 f0 in
  good_solver g solve /\ ignores_constants g solve.
Proof. exact landau_solver. Qed.
Print Assumptions C101_landau_solver.

(** It returns the periodic solution of the Poisson equation and its electric field, - its gradient, at the points of
    the grid (any density on the grid is made of resolved waves: C55_every_density). *)
Theorem C101_landau_field : forall clobber nx ny dx dy m0 c0 f0 x0 y0 rho ws, (2 <= nx)%nat -> (2 <= ny)%nat -> 0 < dx -> 0 < dy ->
  let Ns := [Z.of_nat nx; Z.of_nat ny] in
  let Ls := [IZR (Z.of_nat nx) * dx; IZR (Z.of_nat ny) * dy] in
  let pt i j := [x0 + IZR (Z.of_nat i) * dx; y0 + IZR (Z.of_nat j) * dy] in
  Forall (resolved Ns) ws ->
  (forall i j, (i < nx)%nat -> (j < ny)%nat -> nth (i * ny + j) rho 0 = FftSpec.field_at Ls [x0; y0] ws (pt i j)) ->
  exists phi ex ey Phi grad hess,
    fft_poisson clobber nx ny dx dy m0 c0 f0 rho = Ok (phi, (ex, ey)) /\
    poisson 2 (FftSpec.field_at Ls [x0; y0] ws) (mean Ns (of_list ny rho)) Phi grad hess /\ FftSpec.periodic Ls Phi /\
    (forall i j, (i < nx)%nat -> (j < ny)%nat -> nth (i * ny + j) phi 0 = Phi (pt i j)) /\
    (Forall (resolved_strictly 0 Ns) ws -> forall i j, (i < nx)%nat -> (j < ny)%nat -> nth (i * ny + j) ex 0 = - grad 0%nat (pt i j)) /\
    (Forall (resolved_strictly 1 Ns) ws -> forall i j, (i < nx)%nat -> (j < ny)%nat -> nth (i * ny + j) ey 0 = - grad 1%nat (pt i j)).
Proof. exact landau_field. Qed.
Print Assumptions C101_landau_field.

Example C101_field_case : let w := {| FftSpec.amplitude := 2; FftSpec.number := [1%Z; 0%Z]; FftSpec.shift := 0 |} in
  resolved [4%Z; 4%Z] w /\ resolved_strictly 0 [4%Z; 4%Z] w /\ resolved_strictly 1 [4%Z; 4%Z] w /\
  forall i j, (i < 4)%nat -> (j < 4)%nat -> nth (i * 4 + j) (grid_list 4 4 (fun n => FftSpec.field_at [4; 4] [0; 0] [w] (map IZR n))) 0 =
    FftSpec.field_at [4; 4] [0; 0] [w] [IZR (Z.of_nat i); IZR (Z.of_nat j)].
Proof.
  intros w. split; [repeat constructor; cbn; lia|]. split; [unfold resolved_strictly; cbn; lia|]. split; [unfold resolved_strictly; cbn; lia|].
  intros i j Hi Hj. apply (grid_list_nth 4 4); auto.
Qed.

(** Two runs of it on different numbers of ranks output the same states, potentials and times. *)
Theorem C101_ranks_agree : forall (C : Type) g P Q lx lv lx' lv' charges masses ielec (itp : nat -> interpolator C) coordinate quad w
    clobber dx dy m0 c0 f0 uninit uninit' dt steps f f1 F,
  good_setup g P -> layout_ranges g X2DSplit P lx -> layout_ranges g V2DSplit P lv ->
  good_setup g Q -> layout_ranges g X2DSplit Q lx' -> layout_ranges g V2DSplit Q lv' ->
  good_species g charges masses ielec ->
  buffer_holds (sub_range [GVX; GVY] g) quad (fun idx => w (idx GVX) (idx GVY)) ->
  let solve := fft_poisson clobber (count g GX) (count g GY) dx dy m0 c0 f0 in
  holds_field P lv f F -> holds_field Q lv' f1 F ->
  exists f' evs f1' evs' F',
    predcorr_xy g P lx lv charges masses ielec quad itp coordinate uninit solve dt steps f = Ok (f', evs) /\
    predcorr_xy g Q lx' lv' charges masses ielec quad itp coordinate uninit' solve dt steps f1 = Ok (f1', evs') /\
    holds_field P lv f' F' /\ holds_field Q lv' f1' F' /\
    length evs = length evs' /\
    forall n ev ev', nth_error evs n = Some ev -> nth_error evs' n = Some ev' ->
      exists last F_n phi_n, event_shows P lv ev last n dt F_n phi_n /\ event_shows Q lv' ev' last n dt F_n phi_n.
Proof. exact runs_agree. Qed.
Print Assumptions C101_ranks_agree.

Example C101_case : adiabatic_charge ex_g ex_charges = 1 /\
  good_solver ex_g (fft_poisson (fun c => c) (count ex_g GX) (count ex_g GY) 1 1 (fun _ _ _ => 0) (fun _ => (0, 0)) (fun _ => (0, 0))) /\
  ignores_constants ex_g (fft_poisson (fun c => c) (count ex_g GX) (count ex_g GY) 1 1 (fun _ _ _ => 0) (fun _ => (0, 0)) (fun _ => (0, 0))).
Proof. split; [reflexivity|]. apply (landau_solver ex_g 2). exact ex_setup. Qed.
