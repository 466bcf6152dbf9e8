(** Model of src/geometryXYVxVy (the 2d2v Vlasov-Poisson code on MPI ranks): the two data layouts, the charge
    density (local and reduced over the ranks), the split Vlasov solvers (serial and MPI), the quasi-neutrality
    solver and the predictor-corrector time loop.  A field of one rank is a flat row-major buffer (MpiModel); an
    index is a function from dimension numbers to global positions. *)
From Verif Require Export MpiModel QuadModel AdvModel.
Open Scope R_scope.

(** geometry_xyvxvy.hpp: Species, GridX, GridY, GridVx, GridVy *)
Definition SP : nat := 0.
Definition GX : nat := 1.
Definition GY : nat := 2.
Definition GVX : nat := 3.
Definition GVY : nat := 4.

(** geometry_xyvxvy.hpp 183-184: MPILayout<IdxRangeSpXYVxVy, GridX, GridY> and
    MPILayout<IdxRangeSpVxVyXY, GridVx, GridVy> *)
Definition X2DSplit : layout := {| l_order := [SP; GX; GY; GVX; GVY]; l_distr := [GX; GY] |}.
Definition V2DSplit : layout := {| l_order := [SP; GVX; GVY; GX; GY]; l_distr := [GVX; GVY] |}.

(** The k-th index of ddc::parallel_for_each over a range (row-major); also
    quadrature.hpp 197-210 to_discrete_element *)
Definition global_of (lr : idx_range) (k : nat) : nat -> Z :=
  fun d => (fst (select d lr) + Z.of_nat (decode (local_shape lr) k (Dim d)))%Z.

(** ddc::parallel_deepcopy(destination, source[range of the destination]); it also describes a copy with a
    change of layout.  DDC asserts that the range of the destination is in that of the source: not modelled, an
    access outside the buffer is [Ub]. *)
Definition copy_slice {A} (src_range : idx_range) (src : list A) (dst_range : idx_range) : res (list A) :=
  mapM (fun k => field_at src_range src (global_of dst_range k)) (seq 0 (range_size dst_range)).

(** ** Charge density *)

(** chargedensitycalculator.cpp 29: IdxXYVxVy built from a spatial index and a velocity index, with a species *)
Definition join (isp : Z) (ixy iv : nat -> Z) : nat -> Z :=
  fun d => if Nat.eqb d SP then isp
           else if orb (Nat.eqb d GX) (Nat.eqb d GY) then ixy d else iv d.

(** chargedensitycalculator.cpp 27-33: the lambda: sum over the kinetic species *)
Definition species_sum (charges : list R) (lr : idx_range) (f : list R) (ixy iv : nat -> Z) : res R :=
  let '(front, n) := select SP lr in
  for_res n (fun i sum =>
    let isp := (front + Z.of_nat i)%Z in
    let* q := rd charges isp in
    let* v := field_at lr f (join isp ixy iv) in
    Ok (sum + q * v)) 0.

(** chargedensitycalculator.cpp 12-48 on one rank: [lr] the index range of allfdistribu there, [coeffs] the
    quadrature coefficients on the index range [vr]; the batched Quadrature (quadrature.hpp 120-184) sums
    over the range of the coefficients.  [charges]: all the species, from index 0 (species_init.cpp). *)
Definition charge_density_xy (charges : list R) (lr vr : idx_range) (coeffs f : list R) : res (list R) :=
  let xyr := sub_range [GX; GY] lr in
  let* rho := mapM (fun k =>
      let ixy := global_of xyr k in
      for_res (range_size vr) (fun j sum =>
        let iv := global_of vr j in
        let* c := field_at vr coeffs iv in
        let* s := species_sum charges lr f ixy iv in
        Ok (sum + c * s)) 0) (seq 0 (range_size xyr)) in
  let last_kin_species := (fst (select SP lr) + Z.of_nat (snd (select SP lr)) - 1)%Z in
  let last_species := (Z.of_nat (length charges) - 1)%Z in
  if negb (last_kin_species =? last_species)%Z then
    let* c := rd charges last_species in
    Ok (map (fun r => r + c) rho)
  else Ok rho.

(** MPI_Allreduce(..., MPI_SUM) (MPI standard) with the same count on all ranks: every rank gets the
    element-wise sum.  The order of the floating-point additions, which MPI leaves open, has no effect on
    reals.  Ranks with different counts are undefined behaviour. *)
Definition mpi_allreduce_sum (comm : nat) (send : list (list R)) : res (list (list R)) :=
  let n := length (nth 0 send []) in
  if Nat.eqb (length send) comm && forallb (fun b => Nat.eqb (length b) n) send
  then Ok (repeat (map (fun k => fold_left (fun s b => s + nth k b 0) send 0) (seq 0 n)) comm)
  else Ub.

(** The same code run by every rank on its own data *)
Definition every_rank {A B} (comm : nat) (op : nat -> A -> res B) (data : list A) : res (list B) :=
  mapM (fun r => let* x := rd data (Z.of_nat r) in op r x) (seq 0 comm).

Section Simulation.
  (** the global index range of the kinetic distribution function, the communicator *)
  Variables (g : idx_range) (comm : nat).
  (** the local index ranges of the ranks in both layouts *)
  Variables (lx lv : nat -> idx_range).
  (** charges, masses of all the species and index of the electrons: species_info.hpp *)
  Variables (charges masses : list R) (ielec : Z).
  (** quadrature coefficients on the whole velocity grid (buffer on the range Vx, Vy) *)
  Variable quad_coeffs : list R.

  (** landau4d_fft.cpp 134-137: the local part of the quadrature coefficients *)
  Definition local_quadrature_coeffs (r : nat) : res (list R) :=
    copy_slice (sub_range [GVX; GVY] g) quad_coeffs (sub_range [GVX; GVY] (lv r)).

  (** mpichargedensitycalculator.cpp 19-41 with the local calculator of landau4d_fft.cpp 140-141 *)
  Definition mpi_charge_density (f : list (list R)) : res (list (list R)) :=
    let* rho_local := every_rank comm (fun r fr =>
        let* c := local_quadrature_coeffs r in
        charge_density_xy charges (lv r) (sub_range [GVX; GVY] (lv r)) c fr) f in
    mpi_allreduce_sum comm rho_local.

  (** ** Advections *)
  Context {C : Type}.
  (** builder and evaluator of each dimension (ddc splines, or Lagrange) *)
  Variable itp : nat -> interpolator C.
  (** coordinates of the points of each grid *)
  Variable coordinate : nat -> Z -> R.

  Definition zupd (idx : nat -> Z) (d : nat) (v : Z) : nat -> Z := fun e => if Nat.eqb e d then v else idx e.

  (** the values on the line of direction [d] through [idx] *)
  Definition read_line (d : nat) (lr : idx_range) (f : list R) (idx : nat -> Z) : res (list R) :=
    let '(front, n) := select d lr in
    mapM (fun k => field_at lr f (zupd idx d (front + Z.of_nat k))) (seq 0 n).

  (** bsl_advection_x.hpp 81-132 and bsl_advection_vx.hpp 82-138 on one rank: every point takes the value of the
      interpolant of its line at its coordinate minus its displacement.  The loops over the species and the
      buffers for feet and coefficients are modelled in AdvModel (C56 shows that their effect is this one).  The
      builder was constructed on the whole interpolation domain [select d g] of the direction: values on any
      other range are rejected (assertion in the builders; DDC's is taken to be there). *)
  Definition advect (d : nat) (disp : (nat -> Z) -> res R) (lr : idx_range) (f : list R) : res (list R) :=
    let* _ := check (Z.eqb (fst (select d lr)) (fst (select d g)) && Nat.eqb (snd (select d lr)) (snd (select d g))) in
    mapM (fun k =>
      let idx := global_of lr k in
      let* dx := disp idx in
      let* vals := read_line d lr f idx in
      Ok (i_eval (itp d) (i_build (itp d) None None vals) (coordinate d (idx d) - dx)))
      (seq 0 (range_size lr)).

  (** bsl_advection_x.hpp 106-116: displacement in a spatial direction of velocity dimension [dv] *)
  Definition spatial_displacement (dv : nat) (dt : R) (idx : nat -> Z) : res R :=
    let* me := rd masses ielec in
    let* ms := rd masses (idx SP) in
    Ok (sqrt (me / ms) * dt * coordinate dv (idx dv)).
  (** bsl_advection_vx.hpp 110-122: displacement in a velocity direction; the electric field is a buffer on
      the range [er] *)
  Definition velocity_displacement (er : idx_range) (efield : list R) (dt : R) (idx : nat -> Z) : res R :=
    let* q := rd charges (idx SP) in
    let* me := rd masses ielec in
    let* ms := rd masses (idx SP) in
    let* e := field_at er efield idx in
    Ok (q * sqrt (me / ms) * dt * e).

  Definition advec_x (dt : R) := advect GX (spatial_displacement GVX dt).
  Definition advec_y (dt : R) := advect GY (spatial_displacement GVY dt).
  Definition advec_vx (er : idx_range) (ex : list R) (dt : R) := advect GVX (velocity_displacement er ex dt).
  Definition advec_vy (er : idx_range) (ey : list R) (dt : R) := advect GVY (velocity_displacement er ey dt).

  (** splitvlasovsolver.cpp 19-33: one rank holds everything ([lr]: its range; electric field on [er]) *)
  Definition split_vlasov_xy (lr er : idx_range) (efield : list R * list R) (dt : R) (f : list R) : res (list R) :=
    let* f := advec_x (dt / 2) lr f in
    let* f := advec_y (dt / 2) lr f in
    let* f := advec_vx er (fst efield) (dt / 2) lr f in
    let* f := advec_vy er (snd efield) dt lr f in
    let* f := advec_vx er (fst efield) (dt / 2) lr f in
    let* f := advec_y (dt / 2) lr f in
    advec_x (dt / 2) lr f.

  (** content of freshly allocated memory *)
  Variable uninit : R.

  (** mpisplitvlasovsolver.cpp 19-64.  [efield]: the electric field of every rank, on the spatial range of its
      V2DSplit data. *)
  Definition mpi_split_vlasov (efield : list (list R * list R)) (dt : R) (f : list (list R))
    : res (list (list R)) :=
    (* 32-40 *)
    let er r := sub_range [GX; GY] (lv r) in
    let* local_e := every_rank comm (fun r e =>
        let* ex := copy_slice (er r) (fst e) (er r) in
        let* ey := copy_slice (er r) (snd e) (er r) in
        Ok (ex, ey)) efield in
    let with_e (op : idx_range -> list R -> R -> idx_range -> list R -> res (list R))
               (comp : list R * list R -> list R) (dt : R) (h : list (list R)) :=
        every_rank comm (fun r b => let* e := rd local_e (Z.of_nat r) in
                                    op (er r) (comp e) dt (lx r) b) h in
    (* 43-44 *)
    let* f := every_rank comm (fun r => advec_x (dt / 2) (lv r)) f in
    let* f := every_rank comm (fun r => advec_y (dt / 2) (lv r)) f in
    (* 27-30, 46-49 *)
    let x2d_alloc := map (fun r => repeat uninit (range_size (lx r))) (seq 0 comm) in
    let* h := transpose_world uninit false X2DSplit V2DSplit g comm f x2d_alloc in
    (* 51-53 *)
    let* h := with_e advec_vx fst (dt / 2) h in
    let* h := with_e advec_vy snd dt h in
    let* h := with_e advec_vx fst (dt / 2) h in
    (* 55-58 *)
    let* f := transpose_world uninit true X2DSplit V2DSplit g comm h f in
    (* 60-61 *)
    let* f := every_rank comm (fun r => advec_y (dt / 2) (lv r)) f in
    every_rank comm (fun r => advec_x (dt / 2) (lv r)) f.

  (** ** Time loop *)
  (** the Poisson solver, run by every rank on the whole spatial grid: potential and electric field from
      the charge density (FFTPoissonSolver in landau4d_fft.cpp 139) *)
  Variable solve_poisson : list R -> res (list R * (list R * list R)).

  (** qnsolver.cpp 21-38 on all ranks *)
  Definition qnsolver_xy (f : list (list R)) : res (list (list R * (list R * list R))) :=
    let* rho := mpi_charge_density f in
    every_rank comm (fun _ rho => solve_poisson rho) rho.

  (** predcorr.cpp 54-67 (and 93-106): what one rank outputs: iter, time_saved, fdistribu in the order Species, X,
      Y, Vx, Vy on its part of the velocity grid, electrostatic_potential *)
  Record xyv_event := { ev_last : bool; ev_iter : nat; ev_time : R;
                        ev_f : list (list R); ev_phi : list (list R) }.

  (** predcorr.cpp 26-27: the range in the output layout *)
  Definition output_range (r : nat) : idx_range := sub_range (l_order X2DSplit) (lv r).
  Definition output_event (last : bool) (iter : nat) (time : R) (f : list (list R))
      (fields : list (list R * (list R * list R))) : res xyv_event :=
    let* out := every_rank comm (fun r b =>
        transpose_layout (local_shape (output_range r)) (repeat uninit (range_size (output_range r)))
                         (local_shape (lv r)) b) f in
    Ok {| ev_last := last; ev_iter := iter; ev_time := time; ev_f := out; ev_phi := map fst fields |}.

  (** predcorr.cpp 43-84: one iteration *)
  Definition predcorr_xy_step (dt : R) (iter : nat) (st : list (list R) * list xyv_event)
    : res (list (list R) * list xyv_event) :=
    let '(f, evs) := st in
    let iter_time := INR iter * dt in
    let* fields := qnsolver_xy f in
    let* ev := output_event false iter iter_time f fields in
    let half_t := f in
    let* half_t := mpi_split_vlasov (map snd fields) (dt / 2) half_t in
    let* fields := qnsolver_xy half_t in
    let* f := mpi_split_vlasov (map snd fields) dt f in
    Ok (f, evs ++ [ev]).

  (** predcorr.cpp 21-110 *)
  Definition predcorr_xy (dt : R) (steps : Z) (f : list (list R)) : res (list (list R) * list xyv_event) :=
    let n := Z.to_nat steps in
    let* (f, evs) := for_res n (predcorr_xy_step dt) (f, []) in
    let final_time := INR n * dt in
    let* fields := qnsolver_xy f in
    let* ev := output_event true n final_time f fields in
    Ok (f, evs ++ [ev]).
End Simulation.
