(** Main results on the utilities. *)
From Coq Require Import String Ascii.
From Verif Require Export UtlPrint UtlConf.
Open Scope Z_scope.

(** ** Species parameters *)
Theorem maxwellian_ok g rg t : present t rg same "density_eq" -> present t rg same "temperature_eq" ->
  present t rg same "mean_velocity_eq" ->
  exists m, maxwellian_from_input g rg t = Ok m /\ field_of t rg same "density_eq" (m_density_eq m) /\
    field_of t rg same "temperature_eq" (m_temperature_eq m) /\ field_of t rg same "mean_velocity_eq" (m_mean_velocity_eq m).
Proof.
  intros P1 P2 P3. assert (H := maxwellian_cases t rg g). destruct (maxwellian_from_input g rg t) as [m| | |]; try easy.
  - exists m. split; [reflexivity|exact H].
  - exfalso. apply H. auto.
Qed.
Theorem maxwellian_missing g rg t :
  ~ (present t rg same "density_eq" /\ present t rg same "temperature_eq" /\ present t rg same "mean_velocity_eq") ->
  maxwellian_from_input g rg t = Throw.
Proof.
  intros P. assert (H := maxwellian_cases t rg g). destruct (maxwellian_from_input g rg t) as [m| | |]; try easy.
  exfalso. apply P. destruct H as [H1 [H2 H3]]. split; [|split]; eapply field_present; [exact H1|exact H2|exact H3].
Qed.
Theorem bumpontail_ok g rg t : present t rg same "epsilon_bot" -> present t rg same "temperature_bot" ->
  present t rg same "mean_velocity_bot" ->
  exists m, bumpontail_from_input g rg t = Ok m /\ field_of t rg same "epsilon_bot" (m_epsilon_bot m) /\
    field_of t rg same "temperature_bot" (m_temperature_bot m) /\ field_of t rg same "mean_velocity_bot" (m_mean_velocity_bot m).
Proof.
  intros P1 P2 P3. assert (H := bumpontail_cases t rg g). destruct (bumpontail_from_input g rg t) as [m| | |]; try easy.
  - exists m. split; [reflexivity|exact H].
  - exfalso. apply H. auto.
Qed.
Theorem bumpontail_missing g rg t :
  ~ (present t rg same "epsilon_bot" /\ present t rg same "temperature_bot" /\ present t rg same "mean_velocity_bot") ->
  bumpontail_from_input g rg t = Throw.
Proof.
  intros P. assert (H := bumpontail_cases t rg g). destruct (bumpontail_from_input g rg t) as [m| | |]; try easy.
  exfalso. apply P. destruct H as [H1 [H2 H3]]. split; [|split]; eapply field_present; [exact H1|exact H2|exact H3].
Qed.
Theorem vparmu_ok g rg t : present t rg (position rg) "mass" -> present t rg (position rg) "density_eq" ->
  present t rg (position rg) "temperature_eq" -> present t rg (position rg) "mean_velocity_eq" ->
  exists m, vparmu_from_input g rg t = Ok m /\ field_of t rg (position rg) "mass" (v_mass m) /\
    field_of t rg (position rg) "density_eq" (v_density_eq m) /\
    field_of t rg (position rg) "temperature_eq" (v_temperature_eq m) /\
    field_of t rg (position rg) "mean_velocity_eq" (v_mean_velocity_eq m).
Proof.
  intros P1 P2 P3 P4. assert (H := vparmu_cases t rg g). destruct (vparmu_from_input g rg t) as [m| | |]; try easy.
  - exists m. split; [reflexivity|exact H].
  - exfalso. apply H. auto.
Qed.
Theorem vparmu_missing g rg t :
  ~ (present t rg (position rg) "mass" /\ present t rg (position rg) "density_eq" /\
     present t rg (position rg) "temperature_eq" /\ present t rg (position rg) "mean_velocity_eq") ->
  vparmu_from_input g rg t = Throw.
Proof.
  intros P. assert (H := vparmu_cases t rg g). destruct (vparmu_from_input g rg t) as [m| | |]; try easy.
  exfalso. apply P. destruct H as [H1 [H2 [H3 H4]]].
  split; [|split; [|split]]; eapply field_present; [exact H1|exact H2|exact H3|exact H4].
Qed.
(** the perturbation: the modes of the file, when they are values of int *)
Theorem single_mode_ok g h rg t : present t rg same "perturb_amplitude" ->
  (forall k, (k < r_size rg)%nat -> exists x, entry_int t (parameter (r_front rg + Z.of_nat k) "perturb_mode") x /\ is_int x) ->
  exists m, single_mode_from_input g h rg t = Ok m /\ field_of t rg same "perturb_amplitude" (m_init_perturb_amplitude m) /\
    List.length (m_init_perturb_mode m) = r_size rg /\
    forall k, (k < r_size rg)%nat -> exists x, nth_error (m_init_perturb_mode m) k = Some x /\
      entry_int t (parameter (r_front rg + Z.of_nat k) "perturb_mode") x.
Proof.
  intros P1 P2. assert (H := single_mode_cases t rg g h). destruct (single_mode_from_input g h rg t) as [m| | |]; try easy.
  - exists m. destruct H as [H1 [H2 H3]]. split; [reflexivity|]. split; [exact H1|]. split; [exact H2|]. intros k Hk.
    destruct (H3 k Hk) as [x [E F]]. exists x. split; [|exact E]. rewrite F.
    destruct (P2 k Hk) as [y [E' B]]. rewrite (int_fun _ _ _ _ E E'). now rewrite cast_int_small.
  - exfalso. apply H. split; [exact P1|]. intros k Hk. destruct (P2 k Hk) as [x [E _]]. now exists x.
Qed.
Theorem single_mode_missing g h rg t :
  ~ (present t rg same "perturb_amplitude" /\ present_int t rg "perturb_mode") ->
  single_mode_from_input g h rg t = Throw.
Proof.
  intros P. assert (H := single_mode_cases t rg g h). destruct (single_mode_from_input g h rg t) as [m| | |]; try easy.
  exfalso. apply P. destruct H as [H1 [_ H3]]. split; [eapply field_present; exact H1|]. intros k Hk.
  destruct (H3 k Hk) as [x [E _]]. now exists x.
Qed.

(** ** Integers *)
Theorem nbiter_ok t x : entry_int t [Name "Algorithm"; Name "nbiter"] x -> is_int x ->
  read_nbiter t = Ok x /\ (0 <= x -> Z.of_nat (iterations x) = x).
Proof.
  intros E B. unfold read_nbiter. rewrite (int_ok _ _ _ E). cbn [bind]. rewrite cast_int_small by exact B.
  split; [reflexivity|]. unfold iterations. lia.
Qed.
Theorem nbiter_wraps t x : entry_int t [Name "Algorithm"; Name "nbiter"] x ->
  exists n, read_nbiter t = Ok n /\ is_int n /\
    (2147483648 <= x < 4294967296 -> iterations n = 0%nat) /\
    (4294967296 <= x < 6442450944 -> Z.of_nat (iterations n) = x - 4294967296).
Proof.
  intros E. exists (cast_int x). unfold read_nbiter. rewrite (int_ok _ _ _ E). cbn [bind]. split; [reflexivity|].
  split; [apply cast_int_is|]. unfold cast_int, iterations. split; intros H.
  - replace (x + 2147483648) with ((x - 2147483648) + 1 * 4294967296) by lia. rewrite Z.mod_add by lia.
    rewrite Z.mod_small by lia. lia.
  - replace (x + 2147483648) with ((x - 2147483648) + 1 * 4294967296) by lia. rewrite Z.mod_add by lia.
    rewrite Z.mod_small by lia. lia.
Qed.

(** ** Strings *)
Theorem string_memory a :
  (a_ok a = true -> forall s, a_c_str a = Some s -> pcpp_string_mem a true = (Ok s, [Freed])) /\
  (a_ok a = false -> forall memory_left, fst (pcpp_string_mem a memory_left) = Throw /\
     List.length (snd (pcpp_string_mem a memory_left)) = match a_c_str a with Some _ => 1%nat | None => 0%nat end).
Proof.
  destruct a as [ok c]. unfold pcpp_string_mem. cbn [a_ok a_c_str]. split.
  - intros -> s ->. reflexivity.
  - intros -> ml. cbn [negb fst snd]. split; [reflexivity|]. now destruct c.
Qed.
Theorem string_leak a s : a_ok a = true -> a_c_str a = Some s -> pcpp_string_mem a false = (Throw, []).
Proof. destruct a as [ok c]. cbn [a_ok a_c_str]. intros -> ->. reflexivity. Qed.

(** ** The choice of the equilibrium *)
Lemma method_read t : pcpp_string t [Name "Algorithm"; Name "equilibrium"] = match method t with Some s => Ok s | None => Throw end.
Proof. unfold pcpp_string, method, pcpp_get. cbn [t_path]. destruct (y_node _ _); reflexivity. Qed.
Theorem equilibrium_ok g rg t :
  (method t = Some "maxwellian"%string -> equilibrium_from_input g rg t =
     let* m := maxwellian_from_input g rg t in Ok (Maxwellian m)) /\
  (method t = Some "bump_on_tail"%string -> equilibrium_from_input g rg t =
     let* b := bumpontail_from_input g rg t in Ok (BumpOnTail b)) /\
  ((forall s, method t = Some s -> s <> "maxwellian"%string /\ s <> "bump_on_tail"%string) ->
     equilibrium_from_input g rg t = Throw).
Proof.
  unfold equilibrium_from_input. rewrite method_read. split; [|split].
  - intros ->. reflexivity.
  - intros ->. reflexivity.
  - intros H. destruct (method t) as [s|]; [|reflexivity]. destruct (H s eq_refl) as [H1 H2]. cbn [bind].
    apply String.eqb_neq in H1, H2. now rewrite H1, H2.
Qed.
(** which parameters the equilibrium obtained carries *)
Theorem equilibrium_parameters g rg t e : equilibrium_from_input g rg t = Ok e ->
  match e with
  | Maxwellian m => method t = Some "maxwellian"%string /\ field_of t rg same "density_eq" (m_density_eq m) /\
      field_of t rg same "temperature_eq" (m_temperature_eq m) /\ field_of t rg same "mean_velocity_eq" (m_mean_velocity_eq m)
  | BumpOnTail b => method t = Some "bump_on_tail"%string /\ field_of t rg same "epsilon_bot" (m_epsilon_bot b) /\
      field_of t rg same "temperature_bot" (m_temperature_bot b) /\ field_of t rg same "mean_velocity_bot" (m_mean_velocity_bot b)
  end.
Proof.
  unfold equilibrium_from_input. rewrite method_read. destruct (method t) as [s|] eqn:M; [|discriminate]. cbn [bind].
  destruct (String.eqb s "maxwellian") eqn:E1; [|destruct (String.eqb s "bump_on_tail") eqn:E2; [|discriminate]].
  - apply String.eqb_eq in E1. subst s. assert (H := maxwellian_cases t rg g).
    destruct (maxwellian_from_input g rg t) as [m| | |]; cbn [bind]; try discriminate. intros E. injection E as <-. auto.
  - apply String.eqb_eq in E2. subst s. assert (H := bumpontail_cases t rg g).
    destruct (bumpontail_from_input g rg t) as [m| | |]; cbn [bind]; try discriminate. intros E. injection E as <-. auto.
Qed.

(** ** Spline grids *)
Theorem grid_ok uniform user t arrays id l :
  init_spline_dependent_idx_range uniform user t arrays id = Ok l -> grid_actions uniform user t arrays id l.
Proof.
  unfold init_spline_dependent_idx_range. intros H. cbv zeta in H.
  destruct uniform.
  - destruct (double_cases t [Name "SplineMesh"; Name (id ++ "_min")]) as [[x [E1 V1]]|[E1 V1]];
      rewrite E1 in H; cbn [bind] in H; [|discriminate].
    destruct (double_cases t [Name "SplineMesh"; Name (id ++ "_max")]) as [[y [E2 V2]]|[E2 V2]];
      rewrite E2 in H; cbn [bind] in H; [|discriminate].
    destruct (int_cases t [Name "SplineMesh"; Name (id ++ "_ncells")]) as [[z [E3 V3]]|[E3 V3]];
      rewrite E3 in H; cbn [bind] in H; [|discriminate].
    destruct user.
    + destruct (arrays ("read_" ++ id)%string ("grid_" ++ id)%string) as [m| | |] eqn:A; cbn [bind] in H; try discriminate.
      injection H as <-. exists (InitUniformBSplines x y z), (FromMesh m). split; [reflexivity|]. split; [|now exists m].
      exists x, y, z. auto.
    + injection H as <-. exists (InitUniformBSplines x y z), FromBSplines. split; [reflexivity|]. split; [|reflexivity].
      exists x, y, z. auto.
  - destruct user; cbn [negb bind] in H.
    + destruct (arrays ("read_" ++ id)%string ("breakpoints_" ++ id)%string) as [b| | |] eqn:A; cbn [bind] in H; try discriminate.
      destruct (arrays ("read_" ++ id)%string id) as [m| | |] eqn:B; cbn [bind] in H; try discriminate.
      injection H as <-. exists (InitBSplines b), (FromMesh m). split; [reflexivity|]. split; [now exists b|now exists m].
    + destruct (arrays ("read_" ++ id)%string ("breakpoints_" ++ id)%string) as [b| | |] eqn:A; cbn [bind] in H; try discriminate.
      injection H as <-. exists (InitBSplines b), FromBSplines. split; [reflexivity|]. split; [now exists b|reflexivity].
Qed.
Theorem grid_total uniform user t arrays id x y z mesh bp :
  (uniform = true -> entry_double t (mesh_key id "_min") x /\ entry_double t (mesh_key id "_max") y /\
     entry_int t (mesh_key id "_ncells") z) ->
  (uniform = false -> arrays ("read_" ++ id)%string ("breakpoints_" ++ id)%string = Ok bp) ->
  (user = true -> arrays ("read_" ++ id)%string (if uniform then "grid_" ++ id else id)%string = Ok mesh) ->
  exists l, init_spline_dependent_idx_range uniform user t arrays id = Ok l.
Proof.
  intros H1 H2 H3. unfold init_spline_dependent_idx_range. cbv zeta. destruct uniform.
  - destruct (H1 eq_refl) as [A [B C]]. apply double_ok in A, B. apply int_ok in C. unfold mesh_key in A, B, C.
    rewrite A, B, C. cbn [bind]. destruct user; [rewrite (H3 eq_refl)|]; cbn [bind]; eexists; reflexivity.
  - destruct user; cbn [negb bind]; rewrite (H2 eq_refl); cbn [bind]; [rewrite (H3 eq_refl); cbn [bind]|]; eexists; reflexivity.
Qed.
(** the documented entry _MeshFile is not read: with non-uniform B-splines no entry of the file is *)
Theorem grid_ignores_file user t t' arrays id :
  init_spline_dependent_idx_range false user t arrays id = init_spline_dependent_idx_range false user t' arrays id.
Proof. reflexivity. Qed.
Theorem pseudo_uniform_ok ubp t id l : init_pseudo_uniform ubp t id = Ok l ->
  exists min max ncells bp, l = [InitBSplines bp; InitGrid FromBSplines] /\ ubp min max ncells = Ok bp /\
    entry_double t (mesh_key id "_min") min /\ entry_double t (mesh_key id "_max") max /\
    entry_int t (mesh_key id "_ncells") ncells.
Proof.
  unfold init_pseudo_uniform. intros H.
  destruct (double_cases t [Name "SplineMesh"; Name (id ++ "_min")]) as [[x [E1 V1]]|[E1 V1]];
    rewrite E1 in H; cbn [bind] in H; [|discriminate].
  destruct (double_cases t [Name "SplineMesh"; Name (id ++ "_max")]) as [[y [E2 V2]]|[E2 V2]];
    rewrite E2 in H; cbn [bind] in H; [|discriminate].
  destruct (int_cases t [Name "SplineMesh"; Name (id ++ "_ncells")]) as [[z [E3 V3]]|[E3 V3]];
    rewrite E3 in H; cbn [bind] in H; [|discriminate].
  destruct (ubp x y z) as [bp| | |] eqn:U; cbn [bind] in H; try discriminate. injection H as <-.
  exists x, y, z, bp. auto.
Qed.

(** ** Durations *)
Theorem durations_ok start_time end_time h mn s ms : display_time_difference start_time end_time = (h, mn, s, ms) ->
  3600000 * h + 60000 * mn + 1000 * s + ms = Z.quot (end_time - start_time) 1000000 /\
  (start_time <= end_time -> 0 <= h /\ 0 <= mn < 60 /\ 0 <= s < 60 /\ 0 <= ms < 1000 /\
     3600000 * h + 60000 * mn + 1000 * s + ms = (end_time - start_time) / 1000000) /\
  (end_time <= start_time -> h <= 0 /\ -60 < mn <= 0 /\ -60 < s <= 0 /\ -1000 < ms <= 0).
Proof.
  unfold display_time_difference, duration_cast. cbv zeta. set (d := end_time - start_time). intros E.
  injection E as <- <- <- <-.
  assert (Q : forall u k, 0 < u -> 0 < k -> Z.quot d (u * k) = Z.quot (Z.quot d u) k).
  { intros u k Hu Hk. rewrite Z.quot_quot; lia. }
  replace 3600000000000 with (60000000000 * 60) by lia. rewrite (Q 60000000000 60) by lia.
  replace 60000000000 with (1000000000 * 60) by lia. rewrite (Q 1000000000 60) by lia.
  replace 1000000000 with (1000000 * 1000) by lia. rewrite (Q 1000000 1000) by lia.
  set (m := Z.quot d 1000000).
  assert (M1 := Z.quot_rem' m 1000). set (sec := Z.quot m 1000) in *.
  assert (M2 := Z.quot_rem' sec 60). set (mi := Z.quot sec 60) in *.
  assert (M3 := Z.quot_rem' mi 60). set (hr := Z.quot mi 60) in *.
  split; [lia|]. split; intros H.
  - assert (D : 0 <= d) by (unfold d; lia). 
    assert (Pm : 0 <= m) by (apply Z.quot_pos; lia).
    assert (Ps : 0 <= sec) by (apply Z.quot_pos; lia). assert (Pi : 0 <= mi) by (apply Z.quot_pos; lia).
    assert (Ph : 0 <= hr) by (apply Z.quot_pos; lia).
    assert (R1 := Z.rem_bound_pos m 1000 Pm ltac:(lia)). assert (R2 := Z.rem_bound_pos sec 60 Ps ltac:(lia)).
    assert (R3 := Z.rem_bound_pos mi 60 Pi ltac:(lia)).
    assert (Em : m = d / 1000000) by (apply Z.quot_div_nonneg; lia). rewrite <- Em. lia.
  - assert (D : d <= 0) by (unfold d; lia).
    assert (NP : forall a b, a <= 0 -> 0 < b -> Z.quot a b <= 0).
    { intros a b Ha Hb. replace a with (- (- a)) by lia. rewrite Z.quot_opp_l by lia.
      assert (0 <= Z.quot (- a) b) by (apply Z.quot_pos; lia). lia. }
    assert (Pm : m <= 0) by (apply NP; lia).
    assert (Ps : sec <= 0) by (apply NP; lia). assert (Pi : mi <= 0) by (apply NP; lia).
    assert (Ph : hr <= 0) by (apply NP; lia).
    assert (RB : forall a b, a <= 0 -> 0 < b -> - b < Z.rem a b <= 0).
    { intros a b Ha Hb. assert (G := Z.rem_bound_pos (- a) b ltac:(lia) Hb).
      rewrite Z.rem_opp_l in G by lia. lia. }
    assert (R1 := RB m 1000 Pm ltac:(lia)). assert (R2 := RB sec 60 Ps ltac:(lia)). assert (R3 := RB mi 60 Pi ltac:(lia)).
    lia.
Qed.

(** ** Examples: a file with an electron and an ion *)
Definition ex_node (p : list key) : option string :=
  match p with
  | [Name "SpeciesInfo"; Item i; Name n] =>
      if (i =? 0) || (i =? 1) then
        if String.eqb n "density_eq" then Some (if (i =? 0)%Z then "1" else "2")%string
        else if String.eqb n "temperature_eq" then Some "1"%string
        else if String.eqb n "mean_velocity_eq" then Some "0"%string
        else if String.eqb n "perturb_amplitude" then Some "1"%string
        else if String.eqb n "perturb_mode" then Some "2"%string
        else if String.eqb n "mass" then Some "1"%string else None
      else None
  | [Name "Algorithm"; Name n] =>
      if String.eqb n "equilibrium" then Some "maxwellian"%string
      else if String.eqb n "nbiter" then Some "2147483648"%string else None
  | [Name "SplineMesh"; Name n] =>
      if String.eqb n "x_min" then Some "0"%string else if String.eqb n "x_max" then Some "1"%string
      else if String.eqb n "x_ncells" then Some "2"%string else None
  | _ => None
  end.
Definition ex_double (s : string) : option R :=
  if String.eqb s "0" then Some 0%R else if String.eqb s "1" then Some 1%R else if String.eqb s "2" then Some 2%R else None.
Definition ex_int (s : string) : option Z :=
  if String.eqb s "2" then Some 2 else if String.eqb s "2147483648" then Some 2147483648 else None.
Definition ex_tree : tree := mk_tree (mk_yaml ex_node ex_double ex_int) [].
Definition ex_species : sp_range := mk_range 0 2.
Ltac two k := let H := fresh in intros k H; cbn [r_size ex_species] in H;
  destruct k as [|[|k]]; [| |lia].
Lemma ex_conf : present ex_tree ex_species same "density_eq" /\ present ex_tree ex_species same "temperature_eq" /\
  present ex_tree ex_species same "mean_velocity_eq" /\ present ex_tree ex_species (position ex_species) "mass" /\
  present ex_tree ex_species same "perturb_amplitude" /\
  (forall k, (k < r_size ex_species)%nat -> exists x, entry_int ex_tree (parameter (r_front ex_species + Z.of_nat k) "perturb_mode") x /\ is_int x) /\
  ~ present ex_tree ex_species same "epsilon_bot" /\
  match equilibrium_from_input (fun _ => 7%R) ex_species ex_tree with
  | Ok (Maxwellian m) => m_density_eq m = [1%R; 2%R] /\ m_temperature_eq m = [1%R; 1%R] /\ m_mean_velocity_eq m = [0%R; 0%R]
  | _ => False
  end.
Proof.
  split; [two k; eexists; eexists; split; reflexivity|].
  split; [two k; eexists; eexists; split; reflexivity|].
  split; [two k; eexists; eexists; split; reflexivity|].
  split; [two k; eexists; eexists; split; reflexivity|].
  split; [two k; eexists; eexists; split; reflexivity|].
  split. { two k; exists 2; (split; [eexists; split; reflexivity|unfold is_int; lia]). }
  split. { intros H. destruct (H 0%nat) as [x [s [E F]]]; [cbn; lia|]. discriminate E. }
  repeat split; reflexivity.
Qed.
Lemma ex_nbiter : entry_int ex_tree [Name "Algorithm"; Name "nbiter"] 2147483648 /\
  read_nbiter ex_tree = Ok (-2147483648) /\ method ex_tree = Some "maxwellian"%string.
Proof. split; [eexists; split; reflexivity|]. split; reflexivity. Qed.
Lemma ex_grid : match init_spline_dependent_idx_range true true ex_tree (fun _ n => if String.eqb n "grid_x" then Ok [0%R; 1%R] else Throw) "x" with
  | Ok l => l = [InitUniformBSplines 0%R 1%R 2; InitGrid (FromMesh [0%R; 1%R])] | _ => False end.
Proof. reflexivity. Qed.
Lemma ex_durations : display_time_difference 5 (5 + 3723004999999) = (1, 2, 3, 4) /\
  display_time_difference 3723004999999 0 = (-1, -2, -3, -4).
Proof. split; reflexivity. Qed.
Lemma ex_nbiter_ok : let t := mk_tree (mk_yaml (fun _ => Some "2"%string) ex_double ex_int) [] in
  entry_int t [Name "Algorithm"; Name "nbiter"] 2 /\ is_int 2 /\ read_nbiter t = Ok 2.
Proof. split; [eexists; split; reflexivity|]. split; [unfold is_int; lia|reflexivity]. Qed.
