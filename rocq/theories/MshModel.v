(** Model of the code that prepares the meshes and the arguments of the executables:
    src/utils/mesh_builder.hpp, src/utils/non_uniform_interpolation_points.hpp and src/io/input.cpp.
    double is R; the B-splines are DDC's and are inputs. *)
From Coq Require Import String Ascii.
From Verif Require Import Lib QuadModel OnionModel.
Open Scope R_scope.

(** ** mesh_builder.hpp *)
(** build_uniform_break_points, 9-25: the std::vector is value-initialised, delta is computed once, the interior
    points are written by the loop over i = 1 .. n_cells - 1, the end points are written before and after it *)
Definition build_uniform_break_points (mn mx : R) (n_cells : nat) : res (list R) :=
  let break_points := repeat 0 (n_cells + 1) in
  let delta := (mx - mn) / INR n_cells in
  let* break_points := wr break_points 0 mn in
  let* break_points := for_res (n_cells - 1) (fun j v =>
    let i := (j + 1)%nat in wr v (Z.of_nat i) (mn + INR i * delta)) break_points in
  wr break_points (Z.of_nat n_cells) mx.

(** build_random_non_uniform_break_points, 27-48; [rand i] is the value returned by rand() in iteration i *)
Definition build_random_break_points (RAND_MAX : Z) (rand : nat -> Z) (mn mx : R) (n_cells : nat)
    (non_uniformity : R) : res (list R) :=
  let break_points := repeat 0 (n_cells + 1) in
  let delta := (mx - mn) / INR n_cells in
  let* break_points := wr break_points 0 mn in
  let* break_points := for_res (n_cells - 1) (fun j v =>
    let i := (j + 1)%nat in
    let random_perturbation := IZR (rand i) / IZR RAND_MAX - 0.5 in
    wr v (Z.of_nat i) (mn + (INR i + random_perturbation * non_uniformity) * delta)) break_points in
  wr break_points (Z.of_nat n_cells) mx.

(** ** non_uniform_interpolation_points.hpp *)
(** What get_sampling reads of ddc::discrete_space<BSplines>() : degree, nbasis, is_periodic, rmin, rmax and
    ddc::coordinate(break_point_domain().front() + k) (which may read the knots around the break points, and is
    undefined outside of them) *)
Record bsplines : Type := {
  bs_degree : Z; bs_nbasis : Z; bs_periodic : bool; bs_rmin : R; bs_rmax : R; bs_knot : Z -> res R }.

(** check_n_points_in_cell, 59-69; degree() is a std::size_t, but n_points_in_cell is never negative *)
Definition check_n_points_in_cell (bs : bsplines) (n_points_in_cell : Z) : res unit :=
  if (bs_degree bs + 1 <? n_points_in_cell)%Z then Throw else Ok tt.

(** the loop of get_sampling, 97-112; [k] is current_cell_end_idx - break_point_domain().front() *)
Fixpoint scan (bs : bsplines) (n_points_in_cell k : Z) (points : list R) : res (Z * Z) :=
  match points with
  | [] => Ok (n_points_in_cell, k)
  | point :: rest =>
      let* cell_end := bs_knot bs k in
      if Req_EM_T point cell_end then
        let* _ := check_n_points_in_cell bs (n_points_in_cell + 1) in scan bs 1 (k + 1) rest
      else if Rltb cell_end point then
        let* _ := check_n_points_in_cell bs n_points_in_cell in scan bs 1 (k + 1) rest
      else scan bs (n_points_in_cell + 1) k rest
  end.
(** 97-113 *)
Definition check_cells (bs : bsplines) (points : list R) : res unit :=
  let* (n_points_in_cell, _) := scan bs 0 1 points in
  check_n_points_in_cell bs n_points_in_cell.

(** the point samplings of DDC that get_sampling returns *)
Inductive sampling : Type :=
| NonUniform (coordinates : list R)
| Uniform (origin step : R).
(** ddc::coordinate of the i-th point of the sampling *)
Definition coordinate (s : sampling) (i : nat) : res R :=
  match s with
  | NonUniform l => rd l (Z.of_nat i)
  | Uniform origin step => Ok (origin + INR i * step)
  end.

(** the uniform branch of get_sampling, 119-135.  With a single point the step is L/0: the coordinate of the
    first point is a NaN, the comparison is false and the function throws. *)
Definition uniform_sampling (bs : bsplines) (npoints : nat) (points : list R) (TOL : R) : res sampling :=
  match points with
  | [] => Ub
  | front :: _ =>
      let domain_len := bs_rmax bs - bs_rmin bs in
      if (length points =? 1)%nat then Throw
      else
        let result := Uniform front (domain_len / INR (length points - 1)) in
        let* same_points := for_res npoints (fun i acc =>
          let* c := coordinate result i in
          let* p := rd points (Z.of_nat i) in
          Ok (acc && Rltb (Rabs (c - p)) TOL)%bool) true in
        if same_points then Ok result else Throw
  end.

(** get_sampling, 80-137.  interp_points is a non-const reference: the first component is the content of the
    vector of the caller after the call. *)
Definition get_sampling (uniform : bool) (bs : bsplines) (n_be_min n_be_max : Z) (interp_points : list R) (TOL : R)
    : list R * res sampling :=
  let expected_npoints := (bs_nbasis bs - n_be_min - n_be_max)%Z in
  if negb (Z.of_nat (length interp_points) =? expected_npoints)%Z then (interp_points, Throw)
  else
    let pushed :=
      if bs_periodic bs then
        match interp_points with
        | [] => Ub
        | front :: _ => Ok (interp_points ++ [front + (bs_rmax bs - bs_rmin bs)])
        end
      else Ok interp_points in
    match pushed with
    | Ok points =>
        (points,
         let* _ := check_cells bs points in
         if uniform then uniform_sampling bs (Z.to_nat expected_npoints) points TOL
         else Ok (NonUniform points))
    | _ => (interp_points, Ub)
    end.
(** get_domain, 145-150: the number of points *)
Definition get_domain (bs : bsplines) (n_be_min n_be_max : Z) : Z := (bs_nbasis bs - n_be_min - n_be_max)%Z.

(** ** input.cpp *)
Open Scope string_scope.
(** std::filesystem::path::filename: what follows the last '/', everything without '/' *)
Fixpoint after_last_slash (s : string) : option string :=
  match s with
  | "" => None
  | String c r =>
      match after_last_slash r with
      | Some f => Some f
      | None => if Ascii.eqb c "/" then Some r else None
      end
  end.
Definition filename (s : string) : string := match after_last_slash s with Some f => f | None => s end.
(** from the last '.' on, if there is one *)
Fixpoint from_last_dot (s : string) : option string :=
  match s with
  | "" => None
  | String c r =>
      match from_last_dot r with
      | Some e => Some e
      | None => if Ascii.eqb c "." then Some s else None
      end
  end.
(** std::filesystem::path::extension: empty for ".", "..", names without dot and names whose only dot is the
    first character *)
Definition extension (path : string) : string :=
  match filename path with
  | "." | ".." | "" => ""
  | String _ r => match from_last_dot r with Some e => e | None => "" end
  end.

(** std::isspace in the C locale *)
Definition is_space (c : ascii) : bool :=
  let n := nat_of_ascii c in ((n =? 32) || ((9 <=? n) && (n <=? 13)))%nat%bool.
Definition digit (c : ascii) : option Z :=
  let n := nat_of_ascii c in
  if ((48 <=? n) && (n <=? 57))%nat then Some (Z.of_nat n - 48)%Z else None.
(** the value of the longest prefix made of decimal digits *)
Fixpoint digits (acc : Z) (s : string) : Z :=
  match s with
  | "" => acc
  | String c r => match digit c with Some d => digits (10 * acc + d) r | None => acc end
  end.
Fixpoint skip_spaces (s : string) : string :=
  match s with
  | String c r => if is_space c then skip_spaces r else s
  | "" => ""
  end.
Definition LONG_MAX : Z := (2 ^ 63 - 1)%Z.
Definition clamp (z : Z) : Z := Z.max (- LONG_MAX - 1) (Z.min LONG_MAX z).
(** std::strtol(s, NULL, 10); no digits: 0; out of range: LONG_MIN or LONG_MAX *)
Definition strtol (s : string) : Z :=
  match skip_spaces s with
  | String "-" r => clamp (- digits 0 r)
  | String "+" r => clamp (digits 0 r)
  | r => clamp (digits 0 r)
  end.

(** How a call ends: it returns a configuration and a first iteration to the simulation, or calls std::exit
    after having written files *)
Inductive ending : Type :=
| Returns (config_file : string) (iter_start : Z)
| Exits (success : bool) (written : list (string * string)).

(** "pc_path.extension() != .yaml && pc_path.extension() != .yml" is false *)
Definition is_yaml (path : string) : bool :=
  (String.eqb (extension path) ".yaml" || String.eqb (extension path) ".yml")%bool.
(** 30-35 and 64-69: the state of the stream is not examined; [can_open] tells which files can be created *)
Definition dump_config (can_open : string -> bool) (file params_yaml : string) : ending :=
  Exits true (if can_open file then [(file, params_yaml)] else []).
(** 48-51 and 72-73: argv[0] is printed, which is a null pointer when argc is 0 *)
Definition usage (argv : list string) : res ending :=
  match argv with [] => Ub | _ => Ok (Exits false []) end.

(** parse_executable_arguments (with a first iteration), 13-52 *)
Definition parse_arguments (can_open : string -> bool) (argv : list string) (params_yaml : string) : res ending :=
  match argv with
  | [_; a1] => if is_yaml a1 then Ok (Returns a1 0) else usage argv
  | [_; a1; a2] =>
      if String.eqb a1 "--dump-config" then Ok (dump_config can_open a2 params_yaml) else usage argv
  | [_; a1; a2; a3] =>
      if String.eqb a1 "--iter-restart" then
        let iter_start := strtol a2 in
        if is_yaml a3 then Ok (Returns a3 iter_start) else usage argv
      else usage argv
  | _ => usage argv
  end.
(** parse_executable_arguments (without), 54-74; there is no first iteration, 0 stands for it *)
Definition parse_arguments_no_restart (can_open : string -> bool) (argv : list string) (params_yaml : string)
    : res ending :=
  match argv with
  | [_; a1] => if is_yaml a1 then Ok (Returns a1 0) else usage argv
  | [_; a1; a2] =>
      if String.eqb a1 "--dump-config" then Ok (dump_config can_open a2 params_yaml) else usage argv
  | _ => usage argv
  end.
