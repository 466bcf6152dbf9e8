(** Model of the utilities: printing of arrays (src/utils/view.hpp), reading of the configuration
    (src/paraconfpp/paraconfpp.hpp, the init_from_input functions of src/geometryXVx/initialisation,
    src/geometryXYVxVy/initialisation and src/geometryVparMu/initialisation), initialisation of the spline grids
    (src/io/input.hpp 61-149), durations (simulations/utilities/simulation_utils_tools.hpp, the same text in
    src/geometryRTheta/time_solver/itimesolver.hpp 47-66).

    Simplifications: a text is a list of characters; operator<< of an element is a function [show]; doubles are
    exact reals; paraconf (PC_get, PC_double, PC_int, PC_string) is an oracle: a YAML tree gives the text of the
    scalar at a path, if there is one, and decoders give its value, if it has one. *)
From Coq Require Import String Ascii.
From Verif Require Export Lib.
Open Scope Z_scope.

Definition text := list ascii.

(** ** Multi-dimensional views *)
(** Kokkos::mdspan with the layouts layout_right and layout_stride (view.hpp 12-27): the address of its first element
    in the buffer, its extents, its strides *)
Record mdspan := mk_mdspan { md_base : Z; md_extents : list nat; md_strides : list Z }.

(** the strides of layout_right (the default, view.hpp 18-19 and 87-88) *)
Fixpoint right_strides (extents : list nat) : list Z :=
  match extents with
  | [] => []
  | _ :: rest => fold_right (fun e p => Z.of_nat e * p) 1 rest :: right_strides rest
  end.
(** SpanND(data, extents...) 87-91 *)
Definition span_nd (extents : list nat) : mdspan := mk_mdspan 0 extents (right_strides extents).
(** as_span(std::array<T, N>) 111-121 *)
Definition as_span {T} (arr : list T) : mdspan := span_nd [List.length arr].

(** std::size_t *)
Definition size_t (z : Z) : Z := z mod 18446744073709551616.

(** s(i) of a one-dimensional view: an index which is not in the extent is a violated precondition *)
Definition md_at {T} (data : list T) (base : Z) (extent : nat) (stride : Z) (i : Z) : res T :=
  if (0 <=? i) && (i <? Z.of_nat extent) then rd data (base + i * stride) else Ub.

Section Stream.
  Context {T : Type} (show : T -> text) (data : list T).

  (** 57-59: for (i0 = 0; i0 < s.extent(I0) - 1; ++i0) os << s(i0) << ','; [n] is the number of iterations left *)
  Fixpoint stream_elements (n : nat) (i0 : Z) (base : Z) (extent : nat) (stride : Z) (os : text) : res text :=
    match n with
    | O => Ok os
    | S n' => let* x := md_at data base extent stride i0 in
              stream_elements n' (i0 + 1) base extent stride (os ++ show x ++ [","%char])%list
    end.

  (** stream_impl 34-63; submdspan(s, i0, full_extent...) fixes the first index. A view without dimensions does not
      match the template (I0 is required): it does not compile, [AssertFail] here. *)
  Fixpoint stream_impl (extents : list nat) (strides : list Z) (base : Z) (os : text) : res text :=
    match extents, strides with
    | [extent], [stride] =>                                                              (* 55-61 *)
        let bound := size_t (Z.of_nat extent - 1) in
        let* os1 := stream_elements (Z.to_nat bound) 0 base extent stride (os ++ ["["%char])%list in
        let* x := md_at data base extent stride bound in
        Ok (os1 ++ show x ++ ["]"%char])%list
    | extent :: extents', stride :: strides' =>                                         (* 46-54 *)
        let* os1 := (fix rows (n : nat) (i0 : Z) (os : text) : res text :=
                       match n with
                       | O => Ok os
                       | S n' => let* os' := stream_impl extents' strides' (base + i0 * stride) os in
                                 rows n' (i0 + 1) os'
                       end) extent 0 (os ++ ["["%char])%list in
        Ok (os1 ++ ["]"%char])%list
    | _, _ => AssertFail
    end.
End Stream.
(** operator<< 143-149 *)
Definition print_md {T} (show : T -> text) (data : list T) (s : mdspan) (os : text) : res text :=
  stream_impl show data (md_extents s) (md_strides s) (md_base s) os.

(** ** The configuration *)
Inductive key := Name (s : string) | Item (i : Z).
(** a YAML file: the scalar at a path, PC_double and PC_int of a scalar *)
Record yaml := mk_yaml {
  y_node : list key -> option string;
  y_double : string -> option R;
  y_int : string -> option Z;      (* long *)
}.
(** PC_tree_t: a file and a position in it *)
Record tree := mk_tree { t_file : yaml; t_path : list key }.
(** PC_get, PCpp_get (paraconfpp.hpp 72-76): no check that the node exists. PC_errhandler(PC_NULL_HANDLER)
    is set by every executable (e.g. vlasovpoisson_xvx_fft.cpp 49): an error is only a status. *)
Definition pcpp_get (t : tree) (p : list key) : tree := mk_tree (t_file t) (t_path t ++ p).
(** the value of the node: the status is not PC_OK if there is no node or it is not of this type: 15-19, 26-30 *)
Definition read_as {A} (decode : yaml -> string -> option A) (t : tree) (p : list key) : res A :=
  match y_node (t_file t) (t_path (pcpp_get t p)) with
  | Some s => match decode (t_file t) s with Some x => Ok x | None => Throw end
  | None => Throw
  end.
(** PCpp_double 12-21 *)
Definition pcpp_double (t : tree) (p : list key) : res R := read_as y_double t p.
(** PCpp_int 23-32 *)
Definition pcpp_int (t : tree) (p : list key) : res Z := read_as y_int t p.
(** static_cast<int>(long), conversion modulo 2^32 *)
Definition cast_int (z : Z) : Z := (z + 2147483648) mod 4294967296 - 2147483648.

(** PCpp_string 56-70. The library answers a status and, perhaps, a string it has allocated; building the
    std::string may run out of memory. *)
Record string_answer := mk_answer { a_ok : bool; a_c_str : option string }.
Inductive mem_event := Freed.
Definition pcpp_string_mem (a : string_answer) (memory_left : bool) : res string * list mem_event :=
  if negb (a_ok a) then
    (Throw, match a_c_str a with Some _ => [Freed] | None => [] end)                   (* 60-66 *)
  else match a_c_str a with
  | None => (Ub, [])                                                                   (* 67: std::string(nullptr) *)
  | Some s => if memory_left then (Ok s, [Freed]) else (Throw, [])                      (* 67-69 *)
  end.
(** with enough memory and a library that gives a string whenever it says PC_OK *)
Definition pcpp_string (t : tree) (p : list key) : res string :=
  fst (pcpp_string_mem (match y_node (t_file t) (t_path (pcpp_get t p)) with
                        | Some s => mk_answer true (Some s)
                        | None => mk_answer false None
                        end) true).

(** an index range of species: its front and its size; fields on it: one value per species *)
Record sp_range := mk_range { r_front : Z; r_size : nat }.

(** for (IdxSp const isp : idx_range_kinsp) *)
Fixpoint for_species {St} (n : nat) (isp : Z) (body : Z -> St -> res St) (s : St) : res St :=
  match n with O => Ok s | S n' => let* s' := body isp s in for_species n' (isp + 1) body s' end.

Definition species_info (t : tree) (i : Z) : tree := pcpp_get t [Name "SpeciesInfo"; Item i].

(** maxwellianequilibrium.cpp 66-86 of geometryXVx (45-66 of geometryXYVxVy is the same text): the fields
    m_density_eq, m_temperature_eq, m_mean_velocity_eq. The memory of a field is not initialised: any values. *)
Record maxwellian := mk_maxwellian { m_density_eq : list R; m_temperature_eq : list R; m_mean_velocity_eq : list R }.
Definition maxwellian_from_input (g : nat -> R) (rg : sp_range) (t : tree) : res maxwellian :=
  let fresh := map g (seq 0 (r_size rg)) in
  let* st := for_species (r_size rg) (r_front rg) (fun isp st =>
      let '(density, temperature, mean_velocity) := st in
      let conf_isp := species_info t isp in                                              (* 75 *)
      let* x := pcpp_double conf_isp [Name "density_eq"] in                              (* 77 *)
      let* density' := wr density (isp - r_front rg) x in
      let* y := pcpp_double conf_isp [Name "temperature_eq"] in                          (* 78 *)
      let* temperature' := wr temperature (isp - r_front rg) y in
      let* z := pcpp_double conf_isp [Name "mean_velocity_eq"] in                        (* 79 *)
      let* mean_velocity' := wr mean_velocity (isp - r_front rg) z in
      Ok (density', temperature', mean_velocity')) (fresh, fresh, fresh) in
  let '(density, temperature, mean_velocity) := st in
  Ok (mk_maxwellian density temperature mean_velocity).                                 (* 82-85 and 7-15 *)

(** bumpontailequilibrium.cpp 42-62 *)
Record bumpontail := mk_bumpontail { m_epsilon_bot : list R; m_temperature_bot : list R; m_mean_velocity_bot : list R }.
Definition bumpontail_from_input (g : nat -> R) (rg : sp_range) (t : tree) : res bumpontail :=
  let fresh := map g (seq 0 (r_size rg)) in
  let* st := for_species (r_size rg) (r_front rg) (fun isp st =>
      let '(epsilon, temperature, mean_velocity) := st in
      let conf_isp := species_info t isp in                                              (* 51 *)
      let* x := pcpp_double conf_isp [Name "epsilon_bot"] in                             (* 53 *)
      let* epsilon' := wr epsilon (isp - r_front rg) x in
      let* y := pcpp_double conf_isp [Name "temperature_bot"] in                         (* 54 *)
      let* temperature' := wr temperature (isp - r_front rg) y in
      let* z := pcpp_double conf_isp [Name "mean_velocity_bot"] in                       (* 55 *)
      let* mean_velocity' := wr mean_velocity (isp - r_front rg) z in
      Ok (epsilon', temperature', mean_velocity')) (fresh, fresh, fresh) in
  let '(epsilon, temperature, mean_velocity) := st in
  Ok (mk_bumpontail epsilon temperature mean_velocity).                                 (* 58-61 and 7-15 *)

(** singlemodeperturbinitialisation.cpp 56-75 of geometryXVx (61-80 of geometryXYVxVy is the same text) *)
Record single_mode := mk_single_mode { m_init_perturb_mode : list Z; m_init_perturb_amplitude : list R }.
Definition single_mode_from_input (g : nat -> R) (h : nat -> Z) (rg : sp_range) (t : tree) : res single_mode :=
  let* st := for_species (r_size rg) (r_front rg) (fun isp st =>
      let '(mode, amplitude) := st in
      let conf_isp := species_info t isp in                                              (* 65 *)
      let* x := pcpp_double conf_isp [Name "perturb_amplitude"] in                       (* 67 *)
      let* amplitude' := wr amplitude (isp - r_front rg) x in
      let* y := pcpp_int conf_isp [Name "perturb_mode"] in                               (* 68 *)
      let* mode' := wr mode (isp - r_front rg) (cast_int y) in
      Ok (mode', amplitude')) (map h (seq 0 (r_size rg)), map g (seq 0 (r_size rg))) in
  let '(mode, amplitude) := st in
  Ok (mk_single_mode mode amplitude).                                                  (* 71-74 and 8-16 *)

(** maxwellianequilibrium.cpp 46-71 of geometryVparMu: the entry read is the position of the species, not its index *)
Record maxwellian_vparmu := mk_vparmu {
  v_mass : list R; v_density_eq : list R; v_temperature_eq : list R; v_mean_velocity_eq : list R }.
Definition vparmu_from_input (g : nat -> R) (rg : sp_range) (t : tree) : res maxwellian_vparmu :=
  let fresh := map g (seq 0 (r_size rg)) in
  let* st := for_species (r_size rg) (r_front rg) (fun isp st =>
      let '(mass, density, temperature, mean_velocity) := st in
      let step_sp := isp - r_front rg in                                                 (* 57 *)
      let conf_isp := species_info t step_sp in                                          (* 58 *)
      let* w := pcpp_double conf_isp [Name "mass"] in                                    (* 60 *)
      let* mass' := wr mass step_sp w in
      let* x := pcpp_double conf_isp [Name "density_eq"] in                              (* 61 *)
      let* density' := wr density step_sp x in
      let* y := pcpp_double conf_isp [Name "temperature_eq"] in                          (* 62 *)
      let* temperature' := wr temperature step_sp y in
      let* z := pcpp_double conf_isp [Name "mean_velocity_eq"] in                        (* 63 *)
      let* mean_velocity' := wr mean_velocity step_sp z in
      Ok (mass', density', temperature', mean_velocity')) (fresh, fresh, fresh, fresh) in
  let '(mass, density, temperature, mean_velocity) := st in
  Ok (mk_vparmu mass density temperature mean_velocity).                                (* 66-71 *)

(** equilibrium::init_from_input, iequilibrium.cpp 7-22 *)
Inductive equilibrium := Maxwellian (m : maxwellian) | BumpOnTail (b : bumpontail).
Definition equilibrium_from_input (g : nat -> R) (rg : sp_range) (t : tree) : res equilibrium :=
  let* init_method := pcpp_string t [Name "Algorithm"; Name "equilibrium"] in            (* 11 *)
  if String.eqb init_method "maxwellian" then                                           (* 13-15 *)
    let* m := maxwellian_from_input g rg t in Ok (Maxwellian m)
  else if String.eqb init_method "bump_on_tail" then                                    (* 16-18 *)
    let* b := bumpontail_from_input g rg t in Ok (BumpOnTail b)
  else Throw.                                                                           (* 19-21 *)

(** int const nbiter = static_cast<int>(PCpp_int(conf, ".Algorithm.nbiter")), vlasovpoisson_xvx_fft.cpp 99,
    vlasovpoisson_xvx_fem_uniform.cpp 100, landau4d_fft.cpp 114, test_collSpVparMu.cpp 115 *)
Definition read_nbiter (t : tree) : res Z :=
  let* n := pcpp_int t [Name "Algorithm"; Name "nbiter"] in Ok (cast_int n).
(** for (int iter = 0; iter < steps; ++iter), predcorr.cpp 43-44: the number of iterations *)
Definition iterations (steps : Z) : nat := Z.to_nat steps.

(** ** init_spline_dependent_idx_range, src/io/input.hpp 61-149 *)
(** what is asked to DDC and PDI, in order; [BSplines::is_uniform()] and
    [is_non_uniform_interpolation_points_v<InterpPointInitMethod>] are template parameters. The arrays and the
    sampling of DDC are oracles. *)
Inductive points := FromBSplines | FromMesh (mesh : list R).
Inductive action :=
| InitUniformBSplines (min max : R) (ncells : Z)     (* ddc::init_discrete_space<BSplines>(min, max, ncells) *)
| InitBSplines (break_points : list R)                (* ddc::init_discrete_space<BSplines>(breakpoints) *)
| InitGrid (p : points).                              (* ddc::init_discrete_space<Grid1D>(get_sampling(...)) *)
(** PDI_get_arrays(event, name, array): the arrays of the event, by name *)
Definition pdi := string -> string -> res (list R).

(** build_uniform_break_points (mesh_builder.hpp) is modelled in MshModel: a parameter here *)
Definition init_spline_dependent_idx_range (uniform user_points : bool) (t : tree) (arrays : pdi) (id : string)
  : res (list action) :=
  let event := ("read_" ++ id)%string in
  let* first :=
    (if uniform then                                                                     (* 71-77 *)
       let* min := pcpp_double t [Name "SplineMesh"; Name (id ++ "_min")] in
       let* max := pcpp_double t [Name "SplineMesh"; Name (id ++ "_max")] in
       let* ncells := pcpp_int t [Name "SplineMesh"; Name (id ++ "_ncells")] in
       Ok [InitUniformBSplines min max ncells]
     else if negb user_points then                                                       (* 78-81 *)
       let* breakpoints := arrays event ("breakpoints_" ++ id)%string in
       Ok [InitBSplines breakpoints]
     else Ok []) in
  let* second :=
    (if user_points then                                                                 (* 83-104 *)
       if uniform then
         let* mesh := arrays event ("grid_" ++ id)%string in                             (* 90-92 *)
         Ok [InitGrid (FromMesh mesh)]
       else
         let* breakpoints := arrays event ("breakpoints_" ++ id)%string in               (* 93-102 *)
         let* mesh := arrays event id in
         Ok [InitBSplines breakpoints; InitGrid (FromMesh mesh)]
     else Ok [InitGrid FromBSplines]) in                                                 (* 105-107 *)
  Ok (first ++ second)%list.
(** init_pseudo_uniform_spline_dependent_idx_range 129-149 *)
Definition init_pseudo_uniform (uniform_break_points : R -> R -> Z -> res (list R)) (t : tree) (id : string)
  : res (list action) :=
  let* min := pcpp_double t [Name "SplineMesh"; Name (id ++ "_min")] in
  let* max := pcpp_double t [Name "SplineMesh"; Name (id ++ "_max")] in
  let* ncells := pcpp_int t [Name "SplineMesh"; Name (id ++ "_ncells")] in
  let* break_points := uniform_break_points min max ncells in
  Ok [InitBSplines break_points; InitGrid FromBSplines].

(** ** display_time_difference, simulation_utils_tools.hpp 11-25 *)
(** a duration of the clock is a number of nanoseconds (std::int64_t); duration_cast truncates towards zero *)
Definition duration_cast (ns unit : Z) : Z := Z.quot ns unit.
(** the four numbers displayed (hours, minutes, seconds, milliseconds). Simplification: the doubles are exact,
    which they are below 2^53 ms. *)
Definition display_time_difference (start_time end_time : Z) : Z * Z * Z * Z :=
  let d := end_time - start_time in
  let time_h := duration_cast d 3600000000000 in                                        (* 15-16 *)
  let time_min := duration_cast d 60000000000 in                                        (* 17-18 *)
  let time_s := duration_cast d 1000000000 in                                           (* 19-20 *)
  let time_ms := duration_cast d 1000000 in                                             (* 21-22 *)
  (time_h, time_min - time_h * 60, time_s - time_min * 60, time_ms - time_s * 1000).   (* 23-24 *)
