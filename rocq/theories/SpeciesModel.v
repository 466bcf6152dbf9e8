(** Model of src/speciesinfo (species_info.hpp, species_init.cpp), of
    src/geometryXVx/poisson (chargedensitycalculator.cpp), of the split solvers of
    src/geometryXVx/boltzmann and of the predictor-corrector of
    src/geometryXVx/time_integration/predcorr.cpp. *)
From Verif Require Export QuadModel.
Open Scope R_scope.

(** species_info.hpp 21-50: SpeciesInformation::Impl (the data; the device copies and views of
    60-70 hold the same values) *)
Record species_info := mk_species { sp_charges : list R; sp_masses : list R; sp_ielec : Z }.

Definition is_minus_one (q : R) : bool := if Req_EM_T q (-1) then true else false.

(** species_info.hpp 85-91: the search loop; the state is (electron_found, m_ielec) and an
    unset m_ielec is None *)
Definition find_electron (charge : list R) : option Z :=
  for_loop (length charge)
    (fun i e => match nth_error charge i with
                | Some q => if is_minus_one q then Some (Z.of_nat i) else e
                | None => e
                end) None.

(** species_info.hpp 77-95: constructor.  The assertion (84) reads the size of the moved-from
    parameter, which is taken to be the size of the index range it was built with. *)
Definition species_new (charge mass : list R) : res species_info :=
  let* _ := check (2 <=? length charge)%nat in
  match find_electron charge with
  | Some e => Ok (mk_species charge mass e)
  | None => Throw
  end.

(** species_info.hpp 98-119 and the free functions 145-166; reading a field outside its index
    range is out of bounds *)
Definition ielec (s : species_info) : Z := sp_ielec s.
Definition charge (s : species_info) (i : Z) : res R := rd (sp_charges s) i.
Definition mass (s : species_info) (i : Z) : res R := rd (sp_masses s) i.

(** The YAML file: (charge, mass) of each entry of SpeciesInfo, mass of each entry of
    NeutralSpeciesInfo.  Simplification: the entries have all their keys. *)
Record config := mk_config { cf_species : list (R * R); cf_neutral : list R }.

(** PCpp_get of an entry that is not in the file raises an error *)
Definition pcpp_get {A} (l : list A) (i : nat) : res A :=
  match nth_error l i with Some x => Ok x | None => Throw end.

(** an index range: front and number of elements *)
Record sp_range := mk_range { r_front : Z; r_size : nat }.

(** for (isp : range) reading the configuration, species_init.cpp 26-34 and 54-61 *)
Fixpoint read_all {A} (l : list A) (n : nat) : res (list A) :=
  match n with
  | O => Ok []
  | S m => let* t := read_all l m in let* x := pcpp_get l m in Ok (t ++ [x])
  end.

(** species_init.cpp 37-45: the two flags (nb_elec_adiabspecies, nb_ion_adiabspecies) *)
Definition deduce_adiabatic (kinetic_charges : list R) : nat * nat :=
  fold_left (fun st q => if is_minus_one q then (0%nat, snd st) else (fst st, 0%nat))
            kinetic_charges (1%nat, 1%nat).

(** species_init.cpp 13-91: init_all_species.  A negative number of species is not a size. *)
Definition init_all_species (conf : config) (nb_kinspecies nb_fluidspecies : Z)
  : res (sp_range * sp_range * species_info) :=
  if ((nb_kinspecies <? 0) || (nb_fluidspecies <? 0))%Z then Ub else
  let nk := Z.to_nat nb_kinspecies in
  let nf := Z.to_nat nb_fluidspecies in
  let* kin := read_all (cf_species conf) nk in                              (* 21-34 *)
  let kinetic_charges := map fst kin in
  let kinetic_masses := map snd kin in
  let '(nb_elec, nb_ion) := deduce_adiabatic kinetic_charges in             (* 36-45 *)
  if (1 <? nb_elec + nb_ion)%nat then Throw else                            (* 46-48 *)
  let* fluid_masses := read_all (cf_neutral conf) nf in                     (* 50-61 *)
  let fluid_charges := map (fun _ => 0) fluid_masses in
  (* 63-78: charges over kinetic, fluid and adiabatic species, the last one at the back *)
  let charges := kinetic_charges ++ fluid_charges ++
                 (if (0 <? nb_elec + nb_ion)%nat then [INR nb_ion - INR nb_elec] else []) in
  (* 80-88 *)
  let masses := kinetic_masses ++ fluid_masses in
  let* s := species_new charges masses in                                   (* 90 *)
  Ok (mk_range 0 nk, mk_range nb_kinspecies nf, s).

(** species_init.cpp 99-112 and 122-135 *)
Definition init_species (conf : config) : res (sp_range * species_info) :=
  let* (k, _, s) := init_all_species conf (Z.of_nat (length (cf_species conf))) 0 in Ok (k, s).
Definition init_species_withfluid (conf : config) : res (sp_range * sp_range * species_info) :=
  init_all_species conf (Z.of_nat (length (cf_species conf))) (Z.of_nat (length (cf_neutral conf))).

(** species_init.cpp 142-160: the charges and masses read back from an output file *)
Definition init_kinetic_species (charges masses : list R) : res (sp_range * species_info) :=
  let n := length charges in
  if (length masses <? n)%nat then Ub     (* masses[isp - front] beyond the vector *)
  else let* s := species_new charges (firstn n masses) in Ok (mk_range 0 n, s).

(** ** chargedensitycalculator.cpp 9-43.  [q]: quadrature coefficients over the nv velocity
    points, [f]: distribution function (species, x, v), kinetic species are 0..nk-1.  The
    batched quadrature (quadrature.hpp) is the weighted sum over v (see C44).
    back() of an empty index range is taken to be index -1. *)
Fixpoint sum_species (s : species_info) (n : nat) (f : nat -> R) : res R :=
  match n with
  | O => Ok 0
  | S m => let* acc := sum_species s m f in
           let* c := charge s (Z.of_nat m) in Ok (acc + c * f m)
  end.

Definition charge_density (s : species_info) (nk nv : nat) (q : nat -> R)
  (f : nat -> nat -> nat -> R) (ix : nat) : res R :=
  let* rho := for_res nv (fun iv acc =>
     let* v := sum_species s nk (fun isp => f isp ix iv) in Ok (acc + q iv * v)) 0 in
  let last_kin_species := (Z.of_nat nk - 1)%Z in                            (* 27 *)
  let last_species := (Z.of_nat nk - 1)%Z in                                (* 28 *)
  if negb (last_kin_species =? last_species)%Z then                         (* 29-38 *)
    let* c := charge s last_species in Ok (rho + c)
  else Ok rho.

(** ** Split solvers.  St: the type of the distribution function, E of the electric field. *)
Section Split.
Variables (St E : Type).

(** splitvlasovsolver.cpp 15-24 *)
Definition split_vlasov (advec_x : St -> R -> St) (advec_vx : St -> E -> R -> St)
  (f : St) (e : E) (dt : R) : St :=
  let f := advec_x f (dt / 2) in
  let f := advec_vx f e dt in
  advec_x f (dt / 2).

(** splitrighthandsidesolver.cpp 19-33 *)
Definition split_rhs (boltzmann : St -> E -> R -> St) (rhs : list (St -> R -> St))
  (f : St) (e : E) (dt : R) : St :=
  let f := fold_left (fun f rhsit => rhsit f (dt / 2)) rhs f in
  let f := boltzmann f e dt in
  fold_left (fun f rhsit => rhsit f (dt / 2)) rhs f.
End Split.

(** ** predcorr.cpp 19-98.  St: distribution function, P: pair of the potential and of the
    electric field; the Poisson solver gets the previous content of both (NullQNSolver leaves
    them as they are, nullqnsolver.cpp 5-10) and [fields0] is their initial content, which the
    code does not initialise (28-32). *)
Section PredCorr.
Variables (St Phi E : Type).
Variable boltzmann : St -> E -> R -> St.
Variable poisson : St -> Phi * E -> Phi * E.

(** an output: name of the event, iter, time_saved, fdistribu, electrostatic_potential *)
Inductive event := Iteration (iter : nat) (time : R) (f : St) (phi : Phi)
                 | LastIteration (iter : nat) (time : R) (f : St) (phi : Phi).

(** predcorr.cpp 44-81: one iteration, [ev] the events already output *)
Definition pc_step (time_start dt : R) (iter : nat) (st : St * (Phi * E) * list event)
  : St * (Phi * E) * list event :=
  let '(f, fields, ev) := st in
  let iter_time := time_start + INR iter * dt in
  let fields := poisson f fields in
  let ev := ev ++ [Iteration iter iter_time f (fst fields)] in
  let f_half := f in
  let f_half := boltzmann f_half (snd fields) (dt / 2) in
  let fields := poisson f_half fields in
  let f := boltzmann f (snd fields) dt in
  (f, fields, ev).

(** predcorr.cpp 19-98 *)
Definition predcorr (fields0 : Phi * E) (f : St) (time_start dt : R) (steps : Z)
  : St * list event :=
  let fields := poisson f fields0 in
  let n := Z.to_nat steps in
  let '(f, fields, ev) := for_loop n (pc_step time_start dt) (f, fields, []) in
  let final_time := time_start + INR n * dt in
  let fields := poisson f fields in
  (f, ev ++ [LastIteration n final_time f (fst fields)]).
End PredCorr.

(** nullqnsolver.cpp 5-10 *)
Definition null_qnsolver {St Phi E} (f : St) (fields : Phi * E) : Phi * E := fields.

(** qnsolver.cpp 19-35: the charge density then the Poisson solver, which overwrites both the
    potential and the electric field; the charge density buffer is local *)
Definition qnsolver {St Phi E Rho} (compute_rho : St -> Rho) (solve_poisson : Rho -> Phi * E)
  (f : St) (fields : Phi * E) : Phi * E := solve_poisson (compute_rho f).
