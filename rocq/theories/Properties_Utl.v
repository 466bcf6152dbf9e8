(** Utilities: C125 (printing arrays), C126 (configuration of the species), C127 (choices made from the
    configuration), C128 (durations). *)
From Coq Require Import String Ascii.
From Verif Require Import UtlMain.
Open Scope Z_scope.

(** * C125 *)
Theorem C125_print : forall T (show : T -> text) (data : list T) s os a, printable (md_extents s) ->
  Forall (fun e => Z.of_nat e < 18446744073709551616) (md_extents s) -> holds data s a ->
  print_md show data s os = Ok (os ++ rendering (md_extents s) (fun idx => show (a idx)))%list.
Proof. exact @print_md_ok. Qed.
Example C125_print_ex : printable [2%nat; 2%nat; 2%nat] /\
  holds [0; 1; 2; 3; 4; 5; 6; 7]%nat (span_nd [2; 2; 2]%nat) (fun idx => nth (row_major [2; 2; 2]%nat idx) [0; 1; 2; 3; 4; 5; 6; 7]%nat 0%nat) /\
  print_md digit [0; 1; 2; 3; 4; 5; 6; 7]%nat (span_nd [2; 2; 2]%nat) [] =
    Ok (list_ascii_of_string "[[[0,1][2,3]][[4,5][6,7]]]") /\
  print_md digit [0; 1; 2; 3; 4; 5; 6; 7]%nat (mk_mdspan 1 [4%nat] [2]) [] = Ok (list_ascii_of_string "[1,3,5,7]").
Proof. exact ex_print. Qed.
Print Assumptions C125_print.

(** the views SpanND and as_span: the elements in row-major order *)
Theorem C125_span : forall T (data : list T) es d, List.length data = volume es ->
  holds data (span_nd es) (fun idx => nth (row_major es idx) data d).
Proof. exact @span_nd_values. Qed.
Print Assumptions C125_span.

(** the text determines the shape and the elements *)
Theorem C125_injective : forall T (show : T -> text) (data1 data2 : list T) s1 s2 os a1 a2 out,
  md_extents s1 <> [] -> md_extents s2 <> [] -> ~ In 0%nat (md_extents s1) -> ~ In 0%nat (md_extents s2) ->
  Forall (fun e => Z.of_nat e < 18446744073709551616) (md_extents s1) ->
  Forall (fun e => Z.of_nat e < 18446744073709551616) (md_extents s2) ->
  holds data1 s1 a1 -> holds data2 s2 a2 ->
  (forall idx, is_index (md_extents s1) idx -> plain (show (a1 idx))) ->
  (forall idx, is_index (md_extents s2) idx -> plain (show (a2 idx))) ->
  print_md show data1 s1 os = Ok out -> print_md show data2 s2 os = Ok out ->
  md_extents s1 = md_extents s2 /\ forall idx, is_index (md_extents s1) idx -> show (a1 idx) = show (a2 idx).
Proof. exact @print_inj. Qed.
Example C125_injective_ex : (forall i, (i < 8)%nat -> plain (digit i)) /\ ~ In 0%nat [2; 2; 2]%nat /\
  ~ printable [2; 0]%nat /\ print_md digit [0; 1]%nat (span_nd [2; 0]%nat) [] = Ub /\
  print_md digit [] (span_nd [0; 2]%nat) [] = Ok (list_ascii_of_string "[]").
Proof. exact ex_inj. Qed.
Print Assumptions C125_injective.

(** Finding: printing a view whose last dimension is empty reads outside the array: extent - 1 is computed in
    std::size_t (view.hpp 57 and 60). *)
Theorem C125_empty_refuted : forall T (show : T -> text) (data : list T) s os, md_extents s <> [] ->
  ~ printable (md_extents s) -> List.length (md_strides s) = List.length (md_extents s) -> print_md show data s os = Ub.
Proof. exact (fun T show data s os => print_empty_last show data (md_extents s) (md_strides s) (md_base s) os). Qed.
Print Assumptions C125_empty_refuted.

(** * C126 *)
Theorem C126_maxwellian : forall g rg t, present t rg same "density_eq" -> present t rg same "temperature_eq" ->
  present t rg same "mean_velocity_eq" ->
  exists m, maxwellian_from_input g rg t = Ok m /\ field_of t rg same "density_eq" (m_density_eq m) /\
    field_of t rg same "temperature_eq" (m_temperature_eq m) /\ field_of t rg same "mean_velocity_eq" (m_mean_velocity_eq m).
Proof. exact maxwellian_ok. Qed.
Example C126_maxwellian_ex : present ex_tree ex_species same "density_eq" /\ present ex_tree ex_species same "temperature_eq" /\
  present ex_tree ex_species same "mean_velocity_eq" /\ present ex_tree ex_species (position ex_species) "mass" /\
  present ex_tree ex_species same "perturb_amplitude" /\
  (forall k, (k < r_size ex_species)%nat -> exists x, entry_int ex_tree (parameter (r_front ex_species + Z.of_nat k) "perturb_mode") x /\ is_int x) /\
  ~ present ex_tree ex_species same "epsilon_bot" /\
  match equilibrium_from_input (fun _ => 7%R) ex_species ex_tree with
  | Ok (Maxwellian m) => m_density_eq m = [1%R; 2%R] /\ m_temperature_eq m = [1%R; 1%R] /\ m_mean_velocity_eq m = [0%R; 0%R]
  | _ => False
  end.
Proof. exact ex_conf. Qed.
Print Assumptions C126_maxwellian.

Theorem C126_maxwellian_missing : forall g rg t,
  ~ (present t rg same "density_eq" /\ present t rg same "temperature_eq" /\ present t rg same "mean_velocity_eq") ->
  maxwellian_from_input g rg t = Throw.
Proof. exact maxwellian_missing. Qed.
Print Assumptions C126_maxwellian_missing.

Theorem C126_bump_on_tail : forall g rg t, present t rg same "epsilon_bot" -> present t rg same "temperature_bot" ->
  present t rg same "mean_velocity_bot" ->
  exists m, bumpontail_from_input g rg t = Ok m /\ field_of t rg same "epsilon_bot" (m_epsilon_bot m) /\
    field_of t rg same "temperature_bot" (m_temperature_bot m) /\ field_of t rg same "mean_velocity_bot" (m_mean_velocity_bot m).
Proof. exact bumpontail_ok. Qed.
Print Assumptions C126_bump_on_tail.

(** the example above has no epsilon_bot *)
Theorem C126_bump_on_tail_missing : forall g rg t,
  ~ (present t rg same "epsilon_bot" /\ present t rg same "temperature_bot" /\ present t rg same "mean_velocity_bot") ->
  bumpontail_from_input g rg t = Throw.
Proof. exact bumpontail_missing. Qed.
Print Assumptions C126_bump_on_tail_missing.

Theorem C126_vparmu : forall g rg t, present t rg (position rg) "mass" -> present t rg (position rg) "density_eq" ->
  present t rg (position rg) "temperature_eq" -> present t rg (position rg) "mean_velocity_eq" ->
  exists m, vparmu_from_input g rg t = Ok m /\ field_of t rg (position rg) "mass" (v_mass m) /\
    field_of t rg (position rg) "density_eq" (v_density_eq m) /\
    field_of t rg (position rg) "temperature_eq" (v_temperature_eq m) /\
    field_of t rg (position rg) "mean_velocity_eq" (v_mean_velocity_eq m).
Proof. exact vparmu_ok. Qed.
Print Assumptions C126_vparmu.

Theorem C126_vparmu_missing : forall g rg t,
  ~ (present t rg (position rg) "mass" /\ present t rg (position rg) "density_eq" /\
     present t rg (position rg) "temperature_eq" /\ present t rg (position rg) "mean_velocity_eq") ->
  vparmu_from_input g rg t = Throw.
Proof. exact vparmu_missing. Qed.
Print Assumptions C126_vparmu_missing.

Theorem C126_perturbation : forall g h rg t, present t rg same "perturb_amplitude" ->
  (forall k, (k < r_size rg)%nat -> exists x, entry_int t (parameter (r_front rg + Z.of_nat k) "perturb_mode") x /\ is_int x) ->
  exists m, single_mode_from_input g h rg t = Ok m /\ field_of t rg same "perturb_amplitude" (m_init_perturb_amplitude m) /\
    List.length (m_init_perturb_mode m) = r_size rg /\
    forall k, (k < r_size rg)%nat -> exists x, nth_error (m_init_perturb_mode m) k = Some x /\
      entry_int t (parameter (r_front rg + Z.of_nat k) "perturb_mode") x.
Proof. exact single_mode_ok. Qed.
Print Assumptions C126_perturbation.

Theorem C126_perturbation_missing : forall g h rg t,
  ~ (present t rg same "perturb_amplitude" /\ present_int t rg "perturb_mode") ->
  single_mode_from_input g h rg t = Throw.
Proof. exact single_mode_missing. Qed.
Print Assumptions C126_perturbation_missing.

Theorem C126_nbiter : forall t x, entry_int t [Name "Algorithm"; Name "nbiter"] x -> is_int x ->
  read_nbiter t = Ok x /\ (0 <= x -> Z.of_nat (iterations x) = x).
Proof. exact nbiter_ok. Qed.
Example C126_nbiter_ex : let t := mk_tree (mk_yaml (fun _ => Some "2"%string) ex_double ex_int) [] in
  entry_int t [Name "Algorithm"; Name "nbiter"] 2 /\ is_int 2 /\ read_nbiter t = Ok 2.
Proof. exact ex_nbiter_ok. Qed.
Print Assumptions C126_nbiter.

(** Finding: the number of iterations is read as a long and cast to int without a check
    (vlasovpoisson_xvx_fft.cpp 99 and three other executables; singlemodeperturbinitialisation.cpp 68): 2^31 to
    2^32 - 1 iterations run none at all, 2^32 + n run n, without any message. *)
Theorem C126_nbiter_refuted : forall t x, entry_int t [Name "Algorithm"; Name "nbiter"] x ->
  exists n, read_nbiter t = Ok n /\ is_int n /\
    (2147483648 <= x < 4294967296 -> iterations n = 0%nat) /\
    (4294967296 <= x < 6442450944 -> Z.of_nat (iterations n) = x - 4294967296).
Proof. exact nbiter_wraps. Qed.
Example C126_nbiter_refuted_ex : entry_int ex_tree [Name "Algorithm"; Name "nbiter"] 2147483648 /\
  read_nbiter ex_tree = Ok (-2147483648) /\ method ex_tree = Some "maxwellian"%string.
Proof. exact ex_nbiter. Qed.
Print Assumptions C126_nbiter_refuted.

(** PCpp_string frees the string of the library exactly once *)
Theorem C126_string : forall a,
  (a_ok a = true -> forall s, a_c_str a = Some s -> pcpp_string_mem a true = (Ok s, [Freed])) /\
  (a_ok a = false -> forall memory_left, fst (pcpp_string_mem a memory_left) = Throw /\
     List.length (snd (pcpp_string_mem a memory_left)) = match a_c_str a with Some _ => 1%nat | None => 0%nat end).
Proof. exact string_memory. Qed.
Print Assumptions C126_string.

(** Finding: PCpp_string leaks the string of the library when the copy throws std::bad_alloc (paraconfpp.hpp 67). *)
Theorem C126_string_refuted : forall a s, a_ok a = true -> a_c_str a = Some s -> pcpp_string_mem a false = (Throw, []).
Proof. exact string_leak. Qed.
Print Assumptions C126_string_refuted.

(** * C127 *)
Theorem C127_equilibrium : forall g rg t,
  (method t = Some "maxwellian"%string -> equilibrium_from_input g rg t =
     let* m := maxwellian_from_input g rg t in Ok (Maxwellian m)) /\
  (method t = Some "bump_on_tail"%string -> equilibrium_from_input g rg t =
     let* b := bumpontail_from_input g rg t in Ok (BumpOnTail b)) /\
  ((forall s, method t = Some s -> s <> "maxwellian"%string /\ s <> "bump_on_tail"%string) ->
     equilibrium_from_input g rg t = Throw).
Proof. exact equilibrium_ok. Qed.
Print Assumptions C127_equilibrium.

Theorem C127_equilibrium_parameters : forall g rg t e, equilibrium_from_input g rg t = Ok e ->
  match e with
  | Maxwellian m => method t = Some "maxwellian"%string /\ field_of t rg same "density_eq" (m_density_eq m) /\
      field_of t rg same "temperature_eq" (m_temperature_eq m) /\ field_of t rg same "mean_velocity_eq" (m_mean_velocity_eq m)
  | BumpOnTail b => method t = Some "bump_on_tail"%string /\ field_of t rg same "epsilon_bot" (m_epsilon_bot b) /\
      field_of t rg same "temperature_bot" (m_temperature_bot b) /\ field_of t rg same "mean_velocity_bot" (m_mean_velocity_bot b)
  end.
Proof. exact equilibrium_parameters. Qed.
Print Assumptions C127_equilibrium_parameters.

Theorem C127_spline_grid : forall uniform user t arrays id l,
  init_spline_dependent_idx_range uniform user t arrays id = Ok l -> grid_actions uniform user t arrays id l.
Proof. exact grid_ok. Qed.
Example C127_spline_grid_ex :
  match init_spline_dependent_idx_range true true ex_tree (fun _ n => if String.eqb n "grid_x" then Ok [0%R; 1%R] else Throw) "x" with
  | Ok l => l = [InitUniformBSplines 0%R 1%R 2; InitGrid (FromMesh [0%R; 1%R])] | _ => False end.
Proof. exact ex_grid. Qed.
Print Assumptions C127_spline_grid.

Theorem C127_spline_grid_total : forall uniform user t arrays id x y z mesh bp,
  (uniform = true -> entry_double t (mesh_key id "_min") x /\ entry_double t (mesh_key id "_max") y /\
     entry_int t (mesh_key id "_ncells") z) ->
  (uniform = false -> arrays ("read_" ++ id)%string ("breakpoints_" ++ id)%string = Ok bp) ->
  (user = true -> arrays ("read_" ++ id)%string (if uniform then "grid_" ++ id else id)%string = Ok mesh) ->
  exists l, init_spline_dependent_idx_range uniform user t arrays id = Ok l.
Proof. exact grid_total. Qed.
Print Assumptions C127_spline_grid_total.

Theorem C127_pseudo_uniform_grid : forall ubp t id l, init_pseudo_uniform ubp t id = Ok l ->
  exists min max ncells bp, l = [InitBSplines bp; InitGrid FromBSplines] /\ ubp min max ncells = Ok bp /\
    entry_double t (mesh_key id "_min") min /\ entry_double t (mesh_key id "_max") max /\
    entry_int t (mesh_key id "_ncells") ncells.
Proof. exact pseudo_uniform_ok. Qed.
Print Assumptions C127_pseudo_uniform_grid.

(** Finding: src/io/input.hpp 52-55 documents that non-uniform B-splines are read from the file named by the entry
    SplineMesh.<id>_MeshFile; no entry of the configuration is read in this case: the arrays come from the PDI event
    read_<id>. *)
Theorem C127_mesh_file_refuted : forall user t t' arrays id,
  init_spline_dependent_idx_range false user t arrays id = init_spline_dependent_idx_range false user t' arrays id.
Proof. exact grid_ignores_file. Qed.
Print Assumptions C127_mesh_file_refuted.

(** * C128 *)
Theorem C128_durations : forall start_time end_time h mn s ms,
  display_time_difference start_time end_time = (h, mn, s, ms) ->
  3600000 * h + 60000 * mn + 1000 * s + ms = Z.quot (end_time - start_time) 1000000 /\
  (start_time <= end_time -> 0 <= h /\ 0 <= mn < 60 /\ 0 <= s < 60 /\ 0 <= ms < 1000 /\
     3600000 * h + 60000 * mn + 1000 * s + ms = (end_time - start_time) / 1000000) /\
  (end_time <= start_time -> h <= 0 /\ -60 < mn <= 0 /\ -60 < s <= 0 /\ -1000 < ms <= 0).
Proof. exact durations_ok. Qed.
Example C128_durations_ex : display_time_difference 5 (5 + 3723004999999) = (1, 2, 3, 4) /\
  display_time_difference 3723004999999 0 = (-1, -2, -3, -4).
Proof. exact ex_durations. Qed.
Print Assumptions C128_durations.
