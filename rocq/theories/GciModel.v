(** Model of the initial conditions of the guiding-centre simulations and of the time solver of geometryXY:
    src/geometryRTheta/initialisation/diocotron_initialisation_equilibrium.{hpp,cpp} ("dio"), vortex_merger_equilibrium.hpp
    ("vme"), vortex_merger_initialisation.hpp ("vmi"), src/geometryXY/initialisation/initialisation_Kelvin_Helmholtz.hpp
    ("kh") and src/geometryXY/time_integration/predcorr_RK2.hpp ("xy").
    Exact real arithmetic.  A division by zero gives a floating point number which is not finite: the result [None] means
    that such a division happened, and nothing more is said about the values. *)
From Verif Require Import Lib DerivModel MathModel.
Open Scope R_scope.

Definition nz (x : R) : bool := if Req_EM_T x 0 then false else true.
Definition leb (x y : R) : bool := if Rle_dec x y then true else false.
Definition ltb (x y : R) : bool := if Rlt_dec x y then true else false.

(** ** DiocotronDensitySolution *)
Record diocotron := { W1 : R; R1 : R; R2 : R; W2 : R; charge : R; mode : Z; amplitude : R }.
(** 2 * m_l in int arithmetic *)
Definition twice (l : Z) : res Z := if ((int_min <=? 2 * l) && (2 * l <=? int_max))%Z then Ok (2 * l)%Z else Ub.
(** dio .cpp 8-60: (omega_Re, omega_Im) *)
Definition dispersion_relation (d : diocotron) : res (option (R * R)) :=
  let omega_q := - 2 * charge d / R1 d / R1 d in
  let omega_D := 1 / 2 in
  let omega_frac := omega_q / omega_D in
  let div_W1_R1 := if ltb 0 (R1 d) then W1 d / R1 d else 1 in
  let div_W1_R2 := W1 d / R2 d in
  let div_W1_W2 := W1 d / W2 d in
  let div_R1_R2 := R1 d / R2 d in
  let div_R1_W2 := R1 d / W2 d in
  let div_R2_W2 := R2 d / W2 d in
  let* l2 := twice (mode d) in
  let* div_W1_R1_2l := ipow_i div_W1_R1 l2 in
  let* div_W1_R2_2l := ipow_i div_W1_R2 l2 in
  let* div_W1_W2_2l := ipow_i div_W1_W2 l2 in
  let* div_R1_R2_2l := ipow_i div_R1_R2 l2 in
  let* div_R1_W2_2l := ipow_i div_R1_W2 l2 in
  let* div_R2_W2_2l := ipow_i div_R2_W2 l2 in
  if negb (nz (R1 d) && nz (R2 d) && nz (W2 d) && ((0 <? l2)%Z || nz (W1 d)) && nz (1 - div_W1_W2_2l)) then Ok None
  else
    let l := IZR (mode d) in
    let bl := 1 / (1 - div_W1_W2_2l) * l * (1 - div_R1_R2 * div_R1_R2 + omega_frac * (1 + div_R1_R2 * div_R1_R2)) * (1 - div_W1_W2_2l)
              + (1 - div_R1_R2_2l) * (div_R2_W2_2l - div_W1_R1_2l) in
    let cl := 1 / (1 - div_W1_W2_2l) * l * l * omega_frac * (1 - div_R1_R2 * div_R1_R2 + omega_frac * div_R1_R2 * div_R1_R2) * (1 - div_W1_W2_2l)
              - l * omega_frac * (1 - div_W1_R2_2l) * (1 - div_R2_W2_2l)
              + l * (1 - div_R1_R2 * div_R1_R2 + omega_frac * div_R1_R2 * div_R1_R2) * (1 - div_R1_W2_2l) * (1 - div_W1_R1_2l)
              - (1 - div_R2_W2_2l) * (1 - div_W1_R1_2l) * (1 - div_R1_R2_2l) in
    let Delta := bl * bl - 4 * cl in
    if leb 0 Delta then Ok (Some (omega_D * (bl + sqrt Delta) / 2, omega_D * 0))
    else Ok (Some (omega_D * bl / 2, omega_D * sqrt (- Delta) / 2)).
(** dio .hpp 104-137: the constructor; the result is (get_frequency(), get_slope()), .cpp 63-71 *)
Definition diocotron_solution (d : diocotron) : res (option (R * R)) :=
  let* _ := check (leb 0 (W1 d)) in
  let* _ := check (leb (W1 d) (R1 d)) in
  let* _ := check (ltb (R1 d) (R2 d)) in
  let* _ := check (leb (R2 d) (W2 d)) in
  let* _ := check (negb (mode d =? 0)%Z) in
  dispersion_relation d.
(** dio .cpp 86-97; m_r_bar, m_d, m_p: .hpp 122-124; std::pow with the exponent 50. *)
Definition dio_equilibrium (d : diocotron) (r th : R) : R :=
  if leb (R1 d) r && leb r (R2 d) then 1 * exp (- ((r - (R1 d + R2 d) / 2) / ((R2 d - R1 d) / 2)) ^ 50) else 0.
(** dio .cpp 74-84 *)
Definition dio_initialisation (d : diocotron) (r th : R) : R :=
  if leb (R1 d) r && leb r (R2 d) then
    (1 + amplitude d * cos (IZR (mode d) * th)) * exp (- ((r - (R1 d + R2 d) / 2) / ((R2 d - R1 d) / 2)) ^ 50)
  else 0.

(** ** VortexMergerEquilibria *)
Section Vortex.
(** m_poisson_solver(phi, rho) on the grid; [f]: function *)
Context (poisson : list R -> res (list R)) (f : R -> R) (phi_max tau : R).
(** vme 109 and 149 *)
Definition density_of (sigma phi : list R) : list R := map (fun p => fst p * f (snd p)) (combine sigma phi).
(** vme 120-125: norm > abs ? norm : abs *)
Definition running_max (l : list R) : R := fold_left (fun m x => if Rlt_dec x m then m else x) l 0.
(** vme 107-142: one iteration; (sigma, phi_eq, difference_sigma) *)
Definition eq_iteration (sigma phi : list R) : res (option (list R * list R * R)) :=
  let* phi_star := poisson (density_of sigma phi) in
  let norm := running_max (map Rabs phi_star) in
  if negb (nz norm) then Ok None
  else
    let c := phi_max / norm in
    let difference := running_max (map (fun s => Rabs (s - c * s)) sigma) in
    Ok (Some (map (fun s => c * s) sigma, map (fun p => c * p) phi_star, difference)).
(** vme 105-144: do ... while ((difference_sigma > tau) and (count < count_max)); [left_]: count_max - count *)
Fixpoint eq_do (left_ : nat) (sigma phi : list R) : res (option (list R * list R)) :=
  let* it := eq_iteration sigma phi in
  match it with
  | None => Ok None
  | Some (sigma, phi, difference) =>
    match left_ with
    | O => Ok (Some (sigma, phi))
    | S l => if Rlt_dec tau difference then eq_do l sigma phi else Ok (Some (sigma, phi))
    end
  end.
(** vme 153-160: [rs]: the radii; rho in the order (r, theta), nt angles; when the first radius vanishes the first row is
    overwritten, from the first angle to the last, with its first value *)
Definition unify_centre (rs : list R) (nt : nat) (rho : list R) : res (list R) :=
  match rs with
  | [] => Ub
  | r0 :: _ =>
    if ltb (Rabs r0) (/ 10 ^ 15) then
      let* (_, rho) := (fix loop n (k : nat) rho :=
        match n with
        | O => Ok (k, rho)
        | S n => let* v := rd rho 0 in let* rho := wr rho (Z.of_nat k) v in loop n (S k) rho
        end) nt 0%nat rho in Ok rho
    else Ok rho
  end.
(** vme 87-161; (sigma, phi_eq, rho_eq) *)
Definition find_equilibrium (rs : list R) (nt : nat) (count_max : Z) (sigma phi : list R) : res (option (list R * list R * list R)) :=
  let* r := eq_do (Z.to_nat (count_max - 1)) sigma phi in
  match r with
  | None => Ok None
  | Some (sigma, phi) => let* rho := unify_centre rs nt (density_of sigma phi) in Ok (Some (sigma, phi, rho))
  end.
(** vme 178-205; [xy]: the points of the grid in the physical plane; count_max = 25 by default (94) *)
Definition set_equilibrium (rs : list R) (nt : nat) (xy : list (R * R)) : res (option (list R * list R * list R)) :=
  let sig := 0.3 in
  find_equilibrium rs nt 25 (map (fun _ => sig) xy) (map (fun p => exp (- (fst p * fst p + snd p * snd p) / (2 * sig * sig))) xy).
End Vortex.

(** ** VortexMergerDensitySolution::set_initialisation, vmi 72-102, one point *)
Definition vortex_density (rho_eq eps sigma x1 y1 x2 y2 x y : R) : R :=
  rho_eq + eps * (exp (- ((x - x1) * (x - x1) + (y - y1) * (y - y1)) / (2 * sigma * sigma))
                  + exp (- ((x - x2) * (x - x2) + (y - y2) * (y - y2)) / (2 * sigma * sigma))).
(** ** KelvinHelmholtzInstabilityInitialisation, kh 47-66: (allfdistribu_equilibrium, allfdistribu) at one point *)
Definition kelvin_helmholtz (epsilon mode_k x y : R) : R * R :=
  let eq := sin y in (eq, eq + epsilon * cos (mode_k * x)).

(** ** PredCorrRK2XY *)
Record xy_operators := {
  x_poisson : list R -> res (list R * list (R * R) * list R);  (* m_poisson_solver(phi, E, rho): phi, E and the field rho, which it may modify *)
  x_advect_x : list R -> list R -> R -> res (list R);          (* m_advection_x(f, A_x, dt) *)
  x_advect_y : list R -> list R -> R -> res (list R)           (* m_advection_y(f, A_y, dt) *)
}.
Record xy_event := { xe_iter : Z; xe_time : R; xe_f : list R; xe_phi : list R; xe_E : list (R * R) }.
Section XY.
Context (o : xy_operators).
(** xy 101-128: define_electric_field; the solver is given a copy *)
Definition define_electric_field (f : list R) : res (list (R * R)) := let* (_, E, _) := x_poisson o f in Ok E.
(** xy 131-161: advect_allfdistribu *)
Definition advect_allfdistribu (f : list R) (E : list (R * R)) (dt : R) : res (list R) :=
  let ax := map (fun e => - snd e) E in
  let ay := map (fun e => fst e) E in
  let* f := x_advect_x o f ax (dt / 2) in
  let* f := x_advect_y o f ay dt in
  x_advect_x o f ax (dt / 2).
(** RK2::update, rk2.hpp:169-201 *)
Definition xy_rk2 (f : list R) (dt : R) : res (list R) :=
  let y_prime := f in
  let* k1 := define_electric_field f in
  let* y_prime := advect_allfdistribu y_prime k1 (0.5 * dt) in
  let* k2 := define_electric_field y_prime in
  advect_allfdistribu f k2 dt.
(** xy 166-190: the body; the solver is given the density itself (175) *)
Definition xy_body (dt : R) (iter : Z) (s : list R * list xy_event) : res (list R * list xy_event) :=
  let* f := xy_rk2 (fst s) dt in
  let* (phi, E, f) := x_poisson o f in
  Ok (f, snd s ++ [{| xe_iter := iter; xe_time := IZR iter * dt; xe_f := f; xe_phi := phi; xe_E := E |}]).
(** xy 165: for (int iter(1); iter < nbiter + 1; ++iter); the addition overflows for the largest int *)
Fixpoint xy_loop (dt : R) (n : nat) (iter : Z) (s : list R * list xy_event) : res (list R * list xy_event) :=
  match n with O => Ok s | S n => let* s := xy_body dt iter s in xy_loop dt n (iter + 1)%Z s end.
Definition predcorr_xy (f : list R) (dt : R) (nbiter : Z) : res (list R * list xy_event) :=
  if (nbiter <? int_max)%Z then xy_loop dt (Z.to_nat nbiter) 1%Z (f, []) else Ub.
End XY.
