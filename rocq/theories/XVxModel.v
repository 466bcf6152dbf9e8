(** Model of src/geometryXVx/rhs (mask_tanh, Krook sources, kinetic source, collision operators),
    of src/geometryXVx/utils/fluid_moments.cpp and of src/geometryXVx/initialisation.
    A distribution function is a function of (species, x index, v index); the index ranges start at
    index 0 of their grids except for mask_tanh where the front is arbitrary.
    The parallel_for_each loops write, at each index, only that index of their output. *)
From Verif Require Export SpeciesModel TimeModel.
Open Scope R_scope.

Notation fdist := (nat -> nat -> nat -> R) (only parsing).

(** ddc::coordinate of the i-th point of an index range with front [fr] *)
Definition coordinate (pts : list R) (fr : Z) (i : nat) : R := nth (Z.to_nat fr + i) pts 0.

(** ddc_helper.hpp 25-66: total_interval_length; rlength is the distance between the first and the
    last point of a range.  In the periodic case the range is extended by one point (non uniform
    overload; the uniform one adds the step, which is the same number). *)
Definition interval_length (per : bool) (pts : list R) (fr : Z) (n : nat) : res R :=
  let* a := rd pts fr in
  let* b := rd pts (fr + Z.of_nat n - (if per then 0 else 1)) in
  Ok (Rabs (b - a)).

Inductive mask_type := Normal | Inverted.

(** mask_tanh.cpp 34-40 and 43-50: the value at one point *)
Definition mask_value (type : mask_type) (x_left x_right stiffness x : R) : R :=
  match type with
  | Normal => 0.5 * (tanh ((x - x_left) / stiffness) - tanh ((x - x_right) / stiffness))
  | Inverted => 1 - 0.5 * (tanh ((x - x_left) / stiffness) - tanh ((x - x_right) / stiffness))
  end.

(** the Quadrature operator on a field (quadrature.hpp): weighted sum *)
Definition integrate (n : nat) (q f : nat -> R) : R := Rsum n (fun i => q i * f i).

(** mask_tanh.cpp 11-65.  Division by a zero norm is left to the real numbers (it is a NaN in the
    program). *)
Definition mask_tanh (per : bool) (pts : list R) (fr : Z) (n : nat)
  (extent stiffness : R) (type : mask_type) (normalised : bool) : res (nat -> R) :=
  if Rle_dec stiffness 0 then Throw else                                    (* 18-20 *)
  if (if Rlt_dec extent 0 then true else if Rlt_dec 0.5 extent then true else false) then Throw else
  if Req_EM_T extent 0 then Ok (fun _ => 0)                                 (* 25-26 *)
  else
    let x_min := coordinate pts fr 0 in
    let* Lx := interval_length per pts fr n in
    let x_left := x_min + Lx * extent in
    let x_right := x_min + Lx - Lx * extent in
    let mask := fun i => mask_value type x_left x_right stiffness (coordinate pts fr i) in
    if normalised then                                                      (* 54-61 *)
      let* c := trapezoid_coefficients per pts fr n (repeat 0 n) in
      let coeff_norm := integrate n (fun i => nth i c 0) mask in
      Ok (fun i => mask i / coeff_norm)
    else Ok mask.

(** maxwellianequilibrium.cpp 44-64: compute_maxwellian *)
Definition maxwellian (density temperature mean_velocity v : R) : R :=
  let inv_sqrt_2piT := 1 / sqrt (2 * PI * temperature) in
  density * inv_sqrt_2piT * exp (- (v - mean_velocity) * (v - mean_velocity) / (2 * temperature)).

(** bumpontailequilibrium.cpp 65-91: compute_twomaxwellian *)
Definition two_maxwellian (epsilon_bot temperature_bot mean_velocity_bot v : R) : R :=
  let inv_sqrt_2pi := 1 / sqrt (2 * PI) in
  let norm_f2 := inv_sqrt_2pi / sqrt temperature_bot in
  let f1_v := (1 - epsilon_bot) * inv_sqrt_2pi * exp (- 0.5 * v * v) in
  let f2_v := epsilon_bot * norm_f2 *
              exp (- (v - mean_velocity_bot) * (v - mean_velocity_bot) / (2 * temperature_bot)) in
  f1_v + f2_v.

(** singlemodeperturbinitialisation.cpp 78-96 *)
Definition perturbation (mode : Z) (amplitude Lx x : R) : R :=
  let kx := IZR mode * 2 * PI / Lx in
  amplitude * cos (kx * x).

(** singlemodeperturbinitialisation.cpp 19-53, at one (species, x, v) *)
Definition floor_value : R := / 10 ^ 60.
Definition perturbed (feq pert : R) : R :=
  let fdistribu_val := feq * (1 + pert) in
  if Rlt_dec fdistribu_val floor_value then floor_value else fdistribu_val.

Inductive rhs_type := Source | Sink.

(** krook_source_constant.cpp 29-40 and krook_source_adaptive.cpp 35-46 *)
Definition rhs_mask (type : rhs_type) (per : bool) (pts : list R) (fr : Z) (n : nat)
  (extent stiffness : R) : res (nat -> R) :=
  mask_tanh per pts fr n extent stiffness (match type with Source => Normal | Sink => Inverted end) false.

(** krook_source_constant.cpp 69-92 *)
Definition krook_constant (mask ftarget : nat -> R) (amplitude : R) (f : fdist) (dt : R) : fdist :=
  fun isp ix iv => ftarget iv + (f isp ix iv - ftarget iv) * exp (- amplitude * mask ix * dt).

(** krook_source_adaptive.cpp 75-112: get_amplitudes, the two amplitudes at one x.
    [nsp]: species of the distribution function, [q]: quadrature coefficients in v. *)
Definition last_positive (s : species_info) (nsp : nat) : res (option Z) :=
  for_res nsp (fun i acc => let* c := charge s (Z.of_nat i) in
     Ok (if Rlt_dec 0 c then Some (Z.of_nat i) else acc)) None.

Definition read_f (nsp : nat) (f : fdist) (isp : Z) (ix iv : nat) : res R :=
  if ((isp <? 0) || (Z.of_nat nsp <=? isp))%Z then Ub else Ok (f (Z.to_nat isp) ix iv).

Definition get_amplitudes (s : species_info) (nsp nv : nat) (q : nat -> R) (amplitude density : R)
  (f : fdist) (ix : nat) (amplitudes : list R) : res (list R) :=
  let* _ := check (nsp =? 2)%nat in                                          (* 79 *)
  let* c0 := charge s 0 in
  let* c1 := charge s (Z.of_nat nsp - 1) in
  let* _ := check (if Rlt_dec (c0 * c1) 0 then true else false) in           (* 80 *)
  let* iion_opt := last_positive s nsp in                                    (* 81-86 *)
  match iion_opt with
  | None => Throw                                                            (* 87 *)
  | Some iion =>
      let* amplitudes := wr amplitudes iion amplitude in                     (* 101 *)
      let* (density_ion, density_electron) :=
        for_res nv (fun iv acc =>                                            (* 105-108 *)
          let* fi := read_f nsp f iion ix iv in
          let* fe := read_f nsp f (ielec s) ix iv in
          Ok (fst acc + q iv * fi, snd acc + q iv * fe)) (0, 0) in
      wr amplitudes (ielec s) (amplitude * (density_ion - density) / (density_electron - density))
  end.

(** krook_source_adaptive.cpp 114-140: get_derivative.  The amplitudes are computed from [f], the
    difference from [f_start].  As the time stepper needs a total function, the derivative is given
    here from the amplitudes, and [krook_adaptive] below threads the errors of get_amplitudes. *)
Definition adaptive_derivative (mask ftarget : nat -> R) (amplitudes : nat -> list R) (f_start : fdist)
  : fdist :=
  fun isp ix iv => - mask ix * nth isp (amplitudes ix) 0 * (f_start isp ix iv - ftarget iv).

(** krook_source_adaptive.cpp 142-152 with RK2::update (rk2.hpp 66-99): y' = f + dt/2 k1,
    f := f + dt k2, both derivatives measured from the initial f.  [amps f] are the amplitudes of
    every x (get_amplitudes). *)
Definition krook_adaptive (mask ftarget : nat -> R) (amps : fdist -> nat -> list R) (f : fdist) (dt : R)
  : fdist :=
  let f3 := fun j : nat * nat * nat => f (fst (fst j)) (snd (fst j)) (snd j) in
  let dy := fun (y : nat * nat * nat -> R) j =>
     adaptive_derivative mask ftarget (amps (fun a b c => y (a, b, c))) f (fst (fst j)) (snd (fst j)) (snd j) in
  let r := rk2 (nat * nat * nat -> R) (nat * nat * nat) dy (fun y d t => default_update y d t) f3 dt in
  fun a b c => r (a, b, c).

(** kinetic_source.cpp 27-38: velocity shape *)
Definition velocity_shape (density energy temperature v : R) : R :=
  let coeff := 1 / sqrt (2 * PI * temperature) in
  let v_sq := v * v in
  let density_source := coeff * (1.5 - v_sq / (2 * temperature)) * exp (- v_sq / (2 * temperature)) in
  let energy_source := - 0.5 * coeff * (1 - v_sq / temperature) * exp (- v_sq / (2 * temperature)) in
  density * density_source + energy * energy_source.

(** kinetic_source.cpp 50-73 *)
Definition kinetic_source (spatial_extent shape : nat -> R) (amplitude : R) (f : fdist) (dt : R) : fdist :=
  fun isp ix iv => f isp ix iv + amplitude * spatial_extent ix * shape iv * dt.

(** ** Fluid moments: fluid_moments.cpp.  [v]: coordinates, [q]: coefficients. *)
(** 19-25 and 30-36 *)
Definition fm_density (nv : nat) (q f : nat -> R) : R := integrate nv q f.
(** 41-61: one distribution *)
Definition fm_velocity (nv : nat) (q v f : nat -> R) (density : R) : R :=
  integrate nv q (fun i => v i * f i) / density.
(** 65-80: fields *)
Definition fm_velocity_field (nv : nat) (q v f : nat -> R) (density : R) : R :=
  integrate nv q (fun i => v i * f i / density).
(** 85-100 *)
Definition fm_temperature (nv : nat) (q v f : nat -> R) (density mean_velocity : R) : R :=
  integrate nv q (fun i => (v i - mean_velocity) * (v i - mean_velocity) * f i) / density.
(** 104-120 *)
Definition fm_temperature_field (nv : nat) (q v f : nat -> R) (density mean_velocity : R) : R :=
  integrate nv q (fun i => (v i - mean_velocity) * (v i - mean_velocity) * f i / density).

(** ** Collisions.
    collisions_inter.cpp 48-70 and collisions_intra.cpp (operator(), moments computation): the three
    moments at one (species, x): density, fluid velocity, temperature *)
Definition coll_moments (nv : nat) (q v f : nat -> R) : R * R * R :=
  let '(density, particle_flux, momentum_flux) :=
    for_loop nv (fun iv st =>
      let '(d, p, m) := st in
      let val := q iv * f iv in
      (d + val, p + val * v iv, m + val * v iv * v iv)) (0, 0, 0) in
  let fluid_velocity := particle_flux / density in
  (density, fluid_velocity, (momentum_flux - particle_flux * fluid_velocity) / density).

(** collisions_utils.cpp 19-29: find_ion *)
Definition find_ion (s : species_info) (nsp : nat) : res Z :=
  let* _ := check (nsp =? 2)%nat in
  let* o := last_positive s nsp in
  match o with Some i => Ok i | None => Throw end.

(** collisions_utils.cpp 38-52: nustar profile of a species *)
Definition nustar_profile (s : species_info) (Lx nustar0 : R) (isp : Z) : res R :=
  let* me := mass s (ielec s) in
  let* ms := mass s isp in
  let* c := charge s isp in
  Ok (sqrt (me / ms) * c ^ 4 / Lx * nustar0).

(** collisions_utils.cpp 57-72 *)
Definition collfreq (nustar density temperature : R) : R := nustar * density / Rpower temperature 1.5.

(** collisions_utils.cpp 77-118: (electron, ion) frequencies at one x from the charges, masses and
    the profiles, densities and temperatures of both species *)
Definition collfreq_ab (qe qi me mi nus_e nus_i ne ni Te Ti : R) : R * R :=
  let charge_ratio := qi / qe in
  let me_on_mi := me / mi in
  let collfreq_elec := nus_e * ne / Rpower Te 1.5 in
  let ce := sqrt 2 * charge_ratio * charge_ratio * collfreq_elec * ni / ne * (1 + me_on_mi) /
            Rpower (1 + me_on_mi * Ti / Te) 1.5 in
  let collfreq_ion := nus_i * ni / Rpower Ti 1.5 in
  let ci := sqrt 2 / (charge_ratio * charge_ratio) * collfreq_ion * ne / ni * (1 + 1 / me_on_mi) /
            Rpower (1 + 1 / me_on_mi * Te / Ti) 1.5 in
  (ce, ci).

(** collisions_utils.cpp 123-159: (R_e, R_i, Q_e, Q_i) at one x *)
Definition exchange (me mi nu_e ne Ve Vi Te Ti : R) : R * R * R * R :=
  let mass_ratio := me / mi in
  let me_on_memi := me / (me + mi) in
  let Re := - nu_e * ne * (Ve - sqrt mass_ratio * Vi) in
  let Ri := - sqrt mass_ratio * Re in
  let Qe := - 3 * nu_e * me_on_memi * ne * (Te - Ti) - Ve * Re in
  let Qi := - Qe - (Ve - sqrt mass_ratio * Vi) * Re in
  (Re, Ri, Qe, Qi).

(** collisions_inter.cpp 96-133: fmaxwellian and df at one (species, x, v) *)
Definition inter_df (Rab Qab density fluid_velocity temperature v : R) : R :=
  let inv_sqrt_2piT := 1 / sqrt (2 * PI * temperature) in
  let fmaxwellian := density * inv_sqrt_2piT *
       exp (- (v - fluid_velocity) * (v - fluid_velocity) / (2 * temperature)) in
  let term_v := v - fluid_velocity in
  (2 * Qab * (0.5 / temperature * term_v * term_v - 0.5) + Rab * term_v) * fmaxwellian /
  (density * temperature).

(** collisions_inter.cpp 31-134: get_derivative at one x for the electron and ion distributions, given
    the charges and masses of the two species (as species_info provides them) and the nustar profiles *)
Definition inter_derivative (qe qi me mi nus_e nus_i : R) (nv : nat) (q v fe fi : nat -> R)
  : (nat -> R) * (nat -> R) :=
  let '(ne, Ve, Te) := coll_moments nv q v fe in
  let '(ni, Vi, Ti) := coll_moments nv q v fi in
  let '(nu_e, nu_i) := collfreq_ab qe qi me mi nus_e nus_i ne ni Te Ti in
  let '(Re, Ri, Qe, Qi) := exchange me mi nu_e ne Ve Vi Te Ti in
  (fun iv => inter_df Re Qe ne Ve Te (v iv), fun iv => inter_df Ri Qi ni Vi Ti (v iv)).

(** collisions_inter.cpp 12-29 and collisions_intra.cpp (constructor): the checks of the constructors,
    then the nustar profile of the two species *)
Definition collisions_new (s : species_info) (nsp : nat) (Lx nustar0 : R) : res (R * R) :=
  if negb (nsp =? 2)%nat then Throw else
  if Req_EM_T nustar0 0 then Throw else
  let* a := nustar_profile s Lx nustar0 0 in
  let* b := nustar_profile s Lx nustar0 1 in
  Ok (a, b).
