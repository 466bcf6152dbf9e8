(** Specification vocabulary for the 2d2v code: distribution functions as functions of a global index, without
    ranks, layouts nor buffers. *)
From Verif Require Export MpiSpec XyvModel.
Open Scope R_scope.

(** the index of one point of phase space *)
Definition point (s x y vx vy : Z) : nat -> Z :=
  fun d => match d with 0%nat => s | 1%nat => x | 2%nat => y | 3%nat => vx | 4%nat => vy | _ => 0%Z end.

Definition front_of (g : idx_range) (d : nat) (i : nat) : Z := (fst (select d g) + Z.of_nat i)%Z.
Definition count (g : idx_range) (d : nat) : nat := snd (select d g).

(** Every species of the code is given by its charge; the kinetic ones come first: the charge of a species which
    is not kinetic is added once if the last species is not kinetic. *)
Definition adiabatic_charge (g : idx_range) (charges : list R) : R :=
  if (fst (select SP g) + Z.of_nat (count g SP) =? Z.of_nat (length charges))%Z then 0
  else nth (length charges - 1) charges 0.

(** sum over the whole velocity grid of weight times charge times F *)
Definition kinetic_density (g : idx_range) (charges : list R) (w : Z -> Z -> R) (F : (nat -> Z) -> R) (x y : Z) : R :=
  Rsum (count g GVX) (fun i => Rsum (count g GVY) (fun j =>
    let vx := front_of g GVX i in let vy := front_of g GVY j in
    w vx vy * Rsum (count g SP) (fun s =>
      nth (Z.to_nat (front_of g SP s)) charges 0 * F (point (front_of g SP s) x y vx vy)))).

Definition density (g : idx_range) (charges : list R) (w : Z -> Z -> R) (F : (nat -> Z) -> R) (x y : Z) : R :=
  kinetic_density g charges w F x y + adiabatic_charge g charges.

(** a buffer holds a function of the position on a (sub-)range *)
Definition buffer_holds (lr : idx_range) (b : list R) (F : (nat -> Z) -> R) : Prop :=
  length b = range_size lr /\ forall idx, in_range idx lr -> field_at lr b idx = Ok (F idx).

(** every rank holds the same field on the whole spatial grid *)
Definition all_ranks_hold (comm : nat) (g : idx_range) (bufs : list (list R)) (F : (nat -> Z) -> R) : Prop :=
  length bufs = comm /\ forall b, In b bufs -> buffer_holds (sub_range [GX; GY] g) b F.

Section Transport.
  Context {C : Type} (g : idx_range) (itp : nat -> interpolator C) (coordinate : nat -> Z -> R).
  Variables (charges masses : list R) (ielec : Z).

  (** the interpolant of the values of F on the line of direction [d] through [idx], taken at the coordinate of
      [idx] minus a displacement *)
  Definition transport (d : nat) (disp : (nat -> Z) -> R) (F : (nat -> Z) -> R) (idx : nat -> Z) : R :=
    i_eval (itp d) (i_build (itp d) None None
        (map (fun k => F (fun e => if Nat.eqb e d then front_of g d k else idx e)) (seq 0 (count g d))))
      (coordinate d (idx d) - disp idx).

  Definition mass_of (s : Z) : R := nth (Z.to_nat s) masses 0.
  Definition charge_of (s : Z) : R := nth (Z.to_nat s) charges 0.

  (** free streaming in x (y) at the velocity of the point *)
  Definition stream (d dv : nat) (dt : R) : ((nat -> Z) -> R) -> (nat -> Z) -> R :=
    transport d (fun idx => sqrt (mass_of ielec / mass_of (idx SP)) * dt * coordinate dv (idx dv)).
  (** acceleration in vx (vy) by the electric field at the position of the point *)
  Definition accelerate (d : nat) (e : (nat -> Z) -> R) (dt : R) : ((nat -> Z) -> R) -> (nat -> Z) -> R :=
    transport d (fun idx => charge_of (idx SP) * sqrt (mass_of ielec / mass_of (idx SP)) * dt * e idx).

  (** the symmetric splitting *)
  Definition vlasov_step (ex ey : (nat -> Z) -> R) (dt : R) (F : (nat -> Z) -> R) : (nat -> Z) -> R :=
    let F := stream GX GVX (dt / 2) F in
    let F := stream GY GVY (dt / 2) F in
    let F := accelerate GVX ex (dt / 2) F in
    let F := accelerate GVY ey dt F in
    let F := accelerate GVX ex (dt / 2) F in
    let F := stream GY GVY (dt / 2) F in
    stream GX GVX (dt / 2) F.
End Transport.

(** The run: the fields are the solution of the Poisson solver for the charge density of the whole distribution
    function, listed in row-major order on the spatial grid. *)
Section Run.
  Context {C : Type} (g : idx_range) (itp : nat -> interpolator C) (coordinate : nat -> Z -> R).
  Variables (charges masses : list R) (ielec : Z) (w : Z -> Z -> R).
  Variable solve : list R -> res (list R * (list R * list R)).

  Definition density_list (F : (nat -> Z) -> R) : list R :=
    flat_map (fun i => map (fun j => density g charges w F (front_of g GX i) (front_of g GY j))
                           (seq 0 (count g GY))) (seq 0 (count g GX)).
  (** value of a list of the spatial grid *)
  Definition grid_value (l : list R) (idx : nat -> Z) : R :=
    nth (Z.to_nat (idx GX - fst (select GX g)) * count g GY + Z.to_nat (idx GY - fst (select GY g)))%nat l 0.

  Definition fields_of (F : (nat -> Z) -> R) : list R * (list R * list R) :=
    match solve (density_list F) with Ok x => x | _ => ([], ([], [])) end.
  Definition push (e : list R * list R) (dt : R) (F : (nat -> Z) -> R) : (nat -> Z) -> R :=
    vlasov_step g itp coordinate charges masses ielec (grid_value (fst e)) (grid_value (snd e)) dt F.

  (** one predictor-corrector step *)
  Definition run_step (dt : R) (F : (nat -> Z) -> R) : (nat -> Z) -> R :=
    let half := push (snd (fields_of F)) (dt / 2) F in
    push (snd (fields_of half)) dt F.
  Fixpoint run (dt : R) (n : nat) (F : (nat -> Z) -> R) : (nat -> Z) -> R :=
    match n with O => F | S n' => run_step dt (run dt n' F) end.
End Run.

(** Hypotheses on the set-up *)

(** global range with the five dimensions, compatible with [comm] ranks *)
Definition good_setup (g : idx_range) (comm : nat) : Prop := compatible g X2DSplit V2DSplit comm.

(** the kinetic species are among the species *)
Definition good_species (g : idx_range) (charges masses : list R) (ielec : Z) : Prop :=
  (0 <= fst (select SP g))%Z /\
  (fst (select SP g) + Z.of_nat (count g SP) <= Z.of_nat (length charges))%Z /\
  length masses = length charges /\ (0 <= ielec < Z.of_nat (length masses))%Z.

(** the solver succeeds for every charge density of the spatial grid and returns fields of that grid *)
Definition good_solver (g : idx_range) (solve : list R -> res (list R * (list R * list R))) : Prop :=
  forall rho, length rho = range_size (sub_range [GX; GY] g) ->
  exists phi ex ey, solve rho = Ok (phi, (ex, ey)) /\
    length phi = length rho /\ length ex = length rho /\ length ey = length rho.

(** adding a constant to the charge density has no effect (as for periodic boundary conditions) *)
Definition ignores_constants (g : idx_range) (solve : list R -> res (list R * (list R * list R))) : Prop :=
  forall rho c, length rho = range_size (sub_range [GX; GY] g) -> solve (map (fun r => r + c) rho) = solve rho.

(** one output of all the ranks: number and time of the iteration, the distribution function [F] distributed over
    the ranks (on their parts of the velocity grid, dimensions in the order Species, X, Y, Vx, Vy), the whole
    potential on every rank *)
Definition event_shows (comm : nat) (lv : nat -> idx_range) (ev : xyv_event) (last : bool) (n : nat) (dt : R)
    (F : (nat -> Z) -> R) (phi : list R) : Prop :=
  ev_last ev = last /\ ev_iter ev = n /\ ev_time ev = INR n * dt /\
  holds_field comm (fun r => sub_range [SP; GX; GY; GVX; GVY] (lv r)) (ev_f ev) F /\
  ev_phi ev = repeat phi comm.
