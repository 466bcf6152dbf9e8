(** C113-C115: the collision configuration and operator. *)
From Coq Require Import Lia Permutation.
From Verif Require Import ColSpec ColProofs ColMain ColRun ColExamples.
Open Scope nat_scope.

(** ** C113: replicating, transposing copy *)
(** The destination gets, at every point, the value of the source at that point (whatever the order of
    the dimensions, and whatever the index in the dimensions the source does not have). *)
Theorem C113_replicates : forall dst src, well_formed dst -> well_formed src ->
  incl (dims (f_range src)) (dims (f_range dst)) -> within (f_range dst) (f_range src) ->
  exists f, transpose_replicate_deep_copy dst src = Ok f /\ f_range f = f_range dst /\ well_formed f /\
    forall p, inside (f_range dst) p -> at_point f p = at_point src p.
Proof. exact replicate_ok. Qed.
Print Assumptions C113_replicates.
Example C113_replicates_ex : (well_formed ex_dst /\ well_formed ex_src /\
  incl (dims (f_range ex_src)) (dims (f_range ex_dst)) /\ within (f_range ex_dst) (f_range ex_src)) /\
  match transpose_replicate_deep_copy ex_dst ex_src with
  | Ok f => f_data f = [Some 1; Some 3; Some 1; Some 3; Some 2; Some 4; Some 2; Some 4]%R
  | _ => False
  end.
Proof. split; [exact ex_copy_hyps|reflexivity]. Qed.

(** When the source does not cover the destination, memory outside of the source is read. *)
Theorem C113_uncovered : forall dst src, well_formed dst -> well_formed src ->
  incl (dims (f_range src)) (dims (f_range dst)) ->
  (exists p, inside (f_range dst) p /\ ~ inside (f_range src) p) ->
  transpose_replicate_deep_copy dst src = Ub.
Proof. exact replicate_ub. Qed.
Print Assumptions C113_uncovered.
Example C113_uncovered_ex :
  transpose_replicate_deep_copy (alloc [(Sp, Rng 0 3); (Vpar, Rng 0 2)]) ex_src = Ub.
Proof. reflexivity. Qed.

(** ** C114: the configuration *)
(** For any geometry (with or without r, theta, phi): the construction throws exactly when the number of
    points in r, theta or phi is not a power of two, and otherwise holds the extents, the masses, charges
    and coordinates of the points, zero masks, and uninitialised arrays for |B|, B*_s and the collision
    coefficient. *)
Theorem C114_configuration_data : forall w spoofed y rg intdmu intdvpar sp ph rr th vp mu, NoDup (dims rg) ->
  has_range spoofed rg Sp sp -> has_range spoofed rg Phi ph -> has_range spoofed rg Rr rr ->
  has_range spoofed rg Theta th -> has_range spoofed rg Vpar vp -> has_range spoofed rg Mu mu ->
  species_field (masses w) sp -> species_field (charges w) sp ->
  exists r, new_config_data w spoofed y rg intdmu intdvpar = Some r /\
  (r = Throw /\ ~ (power_of_two (r_size rr) /\ power_of_two (r_size th) /\ power_of_two (r_size ph)) \/
   (power_of_two (r_size rr) /\ power_of_two (r_size th) /\ power_of_two (r_size ph)) /\
   exists q, r = Ok q /\
    (m_sp_extent q = r_size sp /\ m_phi_extent q = r_size ph /\ m_r_extent q = r_size rr /\
     m_theta_extent q = r_size th /\ m_vpar_extent q = r_size vp /\ m_mu_extent q = r_size mu /\
     m_interspecies q = y_interspecies y /\ m_coeff_intdmu q = intdmu /\ m_coeff_intdvpar q = intdvpar) /\
    array_of sp (fun s => at_point (masses w) (on_sp s)) (f_data (m_hat_As q)) /\
    array_of sp (fun s => at_point (charges w) (on_sp s)) (f_data (m_hat_Zs q)) /\
    array_of mu (fun i => Some (Some (coord w Mu i))) (f_data (m_mug q)) /\
    array_of vp (fun i => Some (Some (coord w Vpar i))) (f_data (m_vparg q)) /\
    f_data (m_mask_buffer_r q) = repeat (Some 0%R) (r_size rr) /\
    f_data (m_mask_LIM q) = repeat (Some 0%R) (r_size th * r_size rr) /\
    m_B_norm q = alloc [(Theta, th); (Rr, rr)] /\
    m_Bstar_s q = alloc [(Sp, sp); (Theta, th); (Rr, rr); (Vpar, vp)] /\
    m_coeff_AD q = alloc [(Rr, rr)]).
Proof. exact config_data_ok. Qed.
Print Assumptions C114_configuration_data.
Example C114_configuration_data_ex : species_field (masses ex_w) ex_sp /\ species_field (charges ex_w) ex_sp /\
  power_of_two 8 /\ ~ power_of_two 3.
Proof. split; [exact (proj1 ex_species)|split; [exact (proj2 ex_species)|split; [exists 3; reflexivity|exact not_pow2_3]]]. Qed.

(** In (species, vpar, mu): the construction throws exactly when nustar0 is not 1, and otherwise koliop
    receives the documented arguments, each in its place. *)
Theorem C114_koliop_arguments : forall w y sp vpar mu intdmu intdvpar B Bstar bs bv,
  species_field (masses w) sp -> species_field (charges w) sp ->
  well_formed Bstar -> f_range Bstar = [(Sp, bs); (Vpar, bv)] ->
  within [(Sp, sp); (Vpar, vpar)] [(Sp, bs); (Vpar, bv)] ->
  vparmu_configuration w y sp vpar mu intdmu intdvpar B Bstar = Throw /\ y_nustar0 y <> Some 1%R \/
  y_nustar0 y = Some 1%R /\
  exists q, vparmu_configuration w y sp vpar mu intdmu intdvpar B Bstar = Ok q /\
    documented w (y_interspecies y) sp vpar mu intdmu intdvpar B Bstar (operator_args q).
Proof. exact vparmu_ok. Qed.
Print Assumptions C114_koliop_arguments.
Example C114_koliop_arguments_ex : exists q,
  vparmu_configuration ex_w ex_yaml ex_sp ex_vpar ex_mu ex_intdmu ex_intdvpar 1 ex_Bstar = Ok q /\
  documented ex_w true ex_sp ex_vpar ex_mu ex_intdmu ex_intdvpar 1 ex_Bstar (operator_args q).
Proof. exact (ex_config ex_intdmu ex_intdvpar). Qed.

(** With the documented arguments, and quadrature coefficients for all the points of the grids, koliop
    reads only memory which exists and was written. *)
Theorem C114_memory_valid : forall w i sp vpar mu intdmu intdvpar B Bstar a,
  documented w i sp vpar mu intdmu intdvpar B Bstar a ->
  (forall s, inside [(Sp, sp)] (on_sp s) -> written (at_point (masses w) (on_sp s)) /\ written (at_point (charges w) (on_sp s))) ->
  (forall s v, inside [(Sp, sp); (Vpar, vpar)] (sp_vpar s v) -> written (at_point Bstar (sp_vpar s v))) ->
  (forall k, k < r_size mu -> written (nth_error (f_data intdmu) k)) ->
  (forall k, k < r_size vpar -> written (nth_error (f_data intdvpar) k)) ->
  enough a = true.
Proof. exact vparmu_enough. Qed.
Print Assumptions C114_memory_valid.
Example C114_memory_valid_ex : exists q,
  vparmu_configuration ex_w ex_yaml ex_sp ex_vpar ex_mu ex_intdmu ex_intdvpar 1 ex_Bstar = Ok q /\
  enough (operator_args q) = true /\ points (operator_args q) = 18.
Proof. exact ex_enough. Qed.

(** Finding: the error message says that "the number of points in each dimension must be a power of 2", but
    only r, theta and phi are tested: 3 points in mu, vpar or species are accepted. *)
Theorem C114_every_dimension_refuted :
  ~ (forall w spoofed y rg intdmu intdvpar q d r,
       new_config_data w spoofed y rg intdmu intdvpar = Some (Ok q) -> In (d, r) rg -> power_of_two (r_size r)).
Proof. exact pow2_all_refuted. Qed.
Print Assumptions C114_every_dimension_refuted.

(** Finding: the static assertion "The grid must be uniform in the mu direction." tests the vpar grid
    (collision_common_configuration.hpp 124-126): a non-uniform mu grid is accepted. *)
Theorem C114_mu_uniform_refuted :
  ~ (forall uniform, class_compiles uniform = true -> uniform Vpar = true /\ uniform Mu = true).
Proof. exact uniform_refuted. Qed.
Print Assumptions C114_mu_uniform_refuted.

(** Finding: nothing compares the index ranges of the quadrature coefficients with the distribution
    function's: with coefficients for fewer points a configuration is built all the same, and koliop, which
    only gets the pointer, reads beyond their end. *)
Theorem C114_coefficients_checked_refuted :
  ~ (forall w y sp vpar mu intdmu intdvpar B Bstar q,
       well_formed intdmu -> well_formed intdvpar ->
       vparmu_configuration w y sp vpar mu intdmu intdvpar B Bstar = Ok q ->
       (forall s, inside [(Sp, sp)] (on_sp s) -> written (at_point (masses w) (on_sp s)) /\ written (at_point (charges w) (on_sp s))) ->
       (forall s v, inside [(Sp, sp); (Vpar, vpar)] (sp_vpar s v) -> written (at_point Bstar (sp_vpar s v))) ->
       enough (operator_args q) = true).
Proof. exact coefficients_refuted. Qed.
Print Assumptions C114_coefficients_checked_refuted.

(** ** C115: life cycle of the operators *)
(** Programs which create, apply and destroy operators without copying them: if all the calls to koliop
    succeed the distribution functions are as after the collisions in program order, no work is pending,
    every living operator has its own live handle and every other handle was released exactly once;
    otherwise the program stops (no failure is ignored). *)
Theorem C115_life_cycle_partial : forall collide status l bufs e bufs',
  means collide l (fun _ => None) bufs e bufs' ->
  (exists s, run collide status l (start bufs) = Some (Ok s) /\ tidy e s /\ st_bufs s = bufs' /\
     forall n, n < koliop_calls l -> status n = true) \/
  run collide status l (start bufs) = Some AssertFail /\ exists n, n < koliop_calls l /\ status n = false.
Proof. exact program_ok. Qed.
Print Assumptions C115_life_cycle_partial.
Example C115_life_cycle_partial_ex : exists q e b,
  means ex_collide (ex_prog q) (fun _ => None) [repeat 1%R 18; [5%R]] e b /\ (forall v, e v = None) /\
  b = [repeat 6%R 18; [5%R]].
Proof. exact ex_prog_means. Qed.

(** Once all the operators are destroyed koliop has no live handle, and each was released exactly once. *)
Theorem C115_all_released : forall e s, tidy e s -> (forall v, e v = None) ->
  st_live s = [] /\ Permutation (st_released s) (seq 0 (st_next s)).
Proof. exact all_released. Qed.
Print Assumptions C115_all_released.
Example C115_all_released_ex : tidy (fun _ => None) (start [[1%R]]).
Proof. exact (start_tidy [[1%R]]). Qed.

(** Finding: CollisionOperator declares a destructor which releases the koliop handle, but neither deletes
    nor defines its copy operations: a copied operator (returned by value from a function without elision,
    stored in a vector, captured by value ...) shares the handle, so the handle is released twice, and the
    survivor of the two works on a released handle. *)
Theorem C115_copies_refuted :
  ~ (forall collide status l bufs r, (forall n, status n = true) ->
       (forall v q, In (New v q) l -> enough (operator_args q) = true) ->
       run collide status l (start bufs) = Some r -> r <> Ub).
Proof. exact copies_refuted. Qed.
Print Assumptions C115_copies_refuted.
(** ... always. *)
Theorem C115_copy_released_twice : forall collide status v v' q bufs, v <> v' -> enough (operator_args q) = true ->
  (forall n, status n = true) ->
  run collide status [New v q; CopyObj v v'; Destroy v; Destroy v'] (start bufs) = Some Ub /\
  run collide status [New v q; CopyObj v v'; Destroy v'; Destroy v] (start bufs) = Some Ub /\
  forall i dt, run collide status [New v q; CopyObj v v'; Destroy v; Apply v' i dt] (start bufs) = Some Ub.
Proof. exact copy_ub. Qed.
Print Assumptions C115_copy_released_twice.
Example C115_copy_released_twice_ex : exists q,
  vparmu_configuration ex_w ex_yaml ex_sp ex_vpar ex_mu ex_intdmu ex_intdvpar 1 ex_Bstar = Ok q /\
  enough (operator_args q) = true.
Proof. destruct ex_enough as (q & E & En & _). exists q. split; assumption. Qed.

(** Finding: operator() passes only a pointer to koliop: a distribution function on a smaller index range
    than the one of the configuration is not rejected, and memory beyond its end is modified. *)
Theorem C115_sizes_checked_refuted :
  ~ (forall collide status q bufs i dt r, (forall n, status n = true) -> enough (operator_args q) = true ->
       i < length bufs -> run collide status [New 0 q; Apply 0 i dt] (start bufs) = Some r -> r <> Ub).
Proof. exact sizes_refuted. Qed.
Print Assumptions C115_sizes_checked_refuted.
