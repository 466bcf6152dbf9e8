(** C33, C34, C38, C49: species tables, charge density, split solvers, time loop. *)
From Verif Require Import SpeciesModel SpeciesSpec SpeciesProofs.
Open Scope R_scope.

(** C33 (without adiabatic species): the charge density is the sum over the kinetic species of
    the charge times the velocity integral, for every species table that has the kinetic
    species. *)
Theorem C33_charge_density_partial : forall s nk nv q f ix cs,
  (forall i, (i < nk)%nat -> charge s (Z.of_nat i) = Ok (cs i)) ->
  charge_density s nk nv q f ix =
  Ok (Rsum nk (fun isp => cs isp * Rsum nv (fun iv => q iv * f isp ix iv))).
Proof. exact charge_density_ok. Qed.
Print Assumptions C33_charge_density_partial.

(** the full statement, with the charge of the adiabatic species when there is one, is false:
    with one kinetic ion species the adiabatic electrons (charge -1, species 1 of the table) are
    never added, whatever the distribution function. *)
Theorem C33_adiabatic_refuted : exists conf k s,
  init_species conf = Ok (k, s) /\ r_size k = 1%nat /\ charge s 1 = Ok (-1) /\
  forall nv q f ix, exists rho_kin,
    rho_kin = 1 * Rsum nv (fun iv => q iv * f 0%nat ix iv) /\
    charge_density s (r_size k) nv q f ix = Ok rho_kin /\
    charge_density s (r_size k) nv q f ix <> Ok (rho_kin + -1).
Proof.
  set (conf := mk_config [(1, 1)] []).
  destruct (init_all_species_ok conf 1 0) as [s [ad [E [A [Ec [Em _]]]]]]; [simpl; lia|simpl; lia|].
  exists conf, (mk_range 0 1), s.
  assert (Had : ad = [-1]).
  { destruct A as [[_ [_ ->]] | [[_ [F _]] | [X _]]]; [reflexivity|exfalso|exfalso].
    - inversion F. simpl in *. lra.
    - simpl in X. inversion X as [? ? Q|? ? Q]; subst; [lra|inversion Q]. }
  subst ad. simpl in Ec.
  split; [unfold init_species; cbn [cf_species conf length]; change 0%Z with (Z.of_nat 0); rewrite E; reflexivity|].
  split; [reflexivity|]. split; [unfold charge; rewrite Ec; reflexivity|].
  intros nv q f ix. eexists. split; [reflexivity|].
  assert (R0 : charge_density s 1 nv q f ix = Ok (1 * Rsum nv (fun iv => q iv * f 0%nat ix iv))).
  { rewrite (charge_density_ok s 1 nv q f ix (fun _ => 1)).
    - simpl. f_equal. ring.
    - intros i Hi. replace i with 0%nat by lia. unfold charge. rewrite Ec. reflexivity. }
  cbn [r_size]. rewrite R0. split; [reflexivity|]. intros H. injection H. lra.
Qed.
Print Assumptions C33_adiabatic_refuted.

(** C34: with at least one kinetic species described in the file, initialisation succeeds; the
    kinetic species come first, then the fluid ones (neutral), then the adiabatic one when the
    kinetic species are not both electrons and others; ielec() has charge -1 and is the last
    such species. *)
Theorem C34_init_all_species : forall conf nk nf,
  (1 <= nk <= length (cf_species conf))%nat -> (nf <= length (cf_neutral conf))%nat ->
  exists s adiab,
    init_all_species conf (Z.of_nat nk) (Z.of_nat nf) =
      Ok (mk_range 0 nk, mk_range (Z.of_nat nk) nf, s) /\
    adiabatic_charges (map fst (firstn nk (cf_species conf))) adiab /\
    sp_charges s = map fst (firstn nk (cf_species conf)) ++ repeat 0 nf ++ adiab /\
    sp_masses s = map snd (firstn nk (cf_species conf)) ++ firstn nf (cf_neutral conf) /\
    charge s (ielec s) = Ok (-1) /\
    (forall j, (ielec s < j)%Z -> charge s j <> Ok (-1)).
Proof. exact init_all_species_ok. Qed.
Print Assumptions C34_init_all_species.

(** without kinetic species, or with more species than the file describes, an error is raised *)
Theorem C34_errors : forall conf nk nf,
  (nk = 0 \/ length (cf_species conf) < nk)%nat ->
  init_all_species conf (Z.of_nat nk) (Z.of_nat nf) = Throw.
Proof.
  intros conf nk nf [->|H]; [exact (init_all_species_none conf nf)|exact (init_all_species_missing conf nk nf H)].
Qed.
Print Assumptions C34_errors.

(** look-ups: charge and mass of every kinetic and fluid species are in bounds and are those of
    the file; beyond, the masses are out of bounds (so the mass of an adiabatic species is). *)
Theorem C34_lookups_partial : forall conf nk nf k fl s,
  init_all_species conf (Z.of_nat nk) (Z.of_nat nf) = Ok (k, fl, s) ->
  r_front k = 0%Z /\ r_size k = nk /\ r_front fl = Z.of_nat nk /\ r_size fl = nf /\
  (forall i, (i < nk)%nat -> exists q m, nth_error (cf_species conf) i = Some (q, m) /\
       charge s (Z.of_nat i) = Ok q /\ mass s (Z.of_nat i) = Ok m) /\
  (forall i, (i < nf)%nat -> exists m, nth_error (cf_neutral conf) i = Some m /\
       charge s (Z.of_nat (nk + i)) = Ok 0 /\ mass s (Z.of_nat (nk + i)) = Ok m) /\
  (forall j, (Z.of_nat (nk + nf + 1) <= j)%Z -> charge s j = Ub) /\
  (forall j, (Z.of_nat (nk + nf) <= j)%Z -> mass s j = Ub).
Proof. exact lookups. Qed.
Print Assumptions C34_lookups_partial.

(** mass(ielec()), used by the collision operators, is out of bounds whenever the electrons are
    adiabatic: the claim that every look-up in the range of species is in bounds is false. *)
Theorem C34_mass_of_adiabatic_electron_refuted : forall conf nk nf k fl s,
  init_all_species conf (Z.of_nat nk) (Z.of_nat nf) = Ok (k, fl, s) ->
  Forall (fun p => fst p <> -1) (firstn nk (cf_species conf)) ->
  mass s (ielec s) = Ub.
Proof. exact mass_ielec_oob. Qed.
Print Assumptions C34_mass_of_adiabatic_electron_refuted.

(** restart: the tables saved by a run with kinetic electrons and ions are recovered exactly *)
Theorem C34_restart : forall conf nk k fl s,
  init_all_species conf (Z.of_nat nk) 0 = Ok (k, fl, s) ->
  Exists (fun p => fst p = -1) (firstn nk (cf_species conf)) ->
  Exists (fun p => fst p <> -1) (firstn nk (cf_species conf)) ->
  init_kinetic_species (sp_charges s) (sp_masses s) = Ok (k, s).
Proof. exact restart_same. Qed.
Print Assumptions C34_restart.

(** ... but a run with adiabatic electrons cannot be restarted from its kinetic species *)
Theorem C34_restart_adiabatic_refuted : forall conf nk k fl s,
  init_all_species conf (Z.of_nat nk) 0 = Ok (k, fl, s) ->
  Forall (fun p => fst p <> -1) (firstn nk (cf_species conf)) ->
  init_kinetic_species (firstn (r_size k) (sp_charges s)) (sp_masses s) = Throw \/
  init_kinetic_species (firstn (r_size k) (sp_charges s)) (sp_masses s) = AssertFail.
Proof. exact restart_adiabatic. Qed.
Print Assumptions C34_restart_adiabatic_refuted.

(** deuterium with kinetic electrons, one neutral: the electron is species 1 *)
Example C34_nonvacuous : exists s,
  init_all_species (mk_config [(1, 3670); (-1, 1)] [3670]) 2 1 =
    Ok (mk_range 0 2, mk_range 2 1, s) /\
  sp_charges s = [1; -1; 0] /\ sp_masses s = [3670; 1; 3670] /\ charge s (ielec s) = Ok (-1).
Proof.
  destruct (C34_init_all_species (mk_config [(1, 3670); (-1, 1)] [3670]) 2 1)
    as [s [ad [E [A [C [M [H _]]]]]]]; [simpl; lia|simpl; lia|].
  exists s. change (Z.of_nat 2) with 2%Z in E. change (Z.of_nat 1) with 1%Z in E.
  split; [exact E|]. split; [|split; [exact M|exact H]].
  destruct A as [[_ [F _]] | [[_ [F _]] | [_ [_ ->]]]].
  - simpl in F. inversion F as [|? ? _ F2]. inversion F2 as [|? ? N _]. lra.
  - simpl in F. inversion F. lra.
  - exact C.
Qed.

(** C38: the Vlasov solver is the palindromic (Strang) composition, and is time reversible when
    its two advections are. *)
Theorem C38_vlasov_strang : forall (St E : Type) (ax : St -> R -> St) (av : St -> E -> R -> St) f e dt,
  split_vlasov St E ax av f e dt = strang (fun f t => av f e t) [ax] f dt.
Proof. exact @split_vlasov_is_strang. Qed.
Print Assumptions C38_vlasov_strang.
Theorem C38_vlasov_reversible : forall (St E : Type) (ax : St -> R -> St) (av : St -> E -> R -> St) e,
  reversible ax -> reversible (fun f t => av f e t) ->
  reversible (fun f t => split_vlasov St E ax av f e t).
Proof. exact @vlasov_reversible. Qed.
Print Assumptions C38_vlasov_reversible.

(** the palindromic composition is reversible, and is the product of the flows when they are
    additive in time and commute *)
Theorem C38_strang_reversible : forall (St : Type) (c : St -> R -> St) l,
  reversible c -> (forall p, In p l -> reversible p) -> reversible (strang c l).
Proof. exact @strang_reversible. Qed.
Print Assumptions C38_strang_reversible.
Theorem C38_strang_commuting : forall (St : Type) (c : St -> R -> St) l f dt,
  (forall p, In p l -> additive p /\ commute p c) -> ForallOrdPairs commute l ->
  strang c l f dt = c (fold_left (fun f s => s f dt) l f) dt.
Proof. exact @strang_order. Qed.
Print Assumptions C38_strang_commuting.

(** the right-hand-side solver is that composition with at most one right-hand side, or when the
    right-hand sides commute *)
Theorem C38_rhs_strang_partial : forall (St E : Type) (b : St -> E -> R -> St) rhs f e dt,
  ((length rhs <= 1)%nat \/ ForallOrdPairs commute rhs) ->
  split_rhs St E b rhs f e dt = strang (fun f t => b f e t) rhs f dt.
Proof.
  intros St E b rhs f e dt [H|H];
    [exact (split_rhs_single_is_strang b rhs f e dt H)|exact (split_rhs_commuting_is_strang b rhs f e dt H)].
Qed.
Print Assumptions C38_rhs_strang_partial.

(** with two right-hand sides that do not commute it is not: the second half-steps are applied
    in the same order as the first ones, and the step is not time reversible although both flows
    (a translation and a dilation of the line) are. *)
Theorem C38_rhs_order_refuted : forall h, h <> 0 ->
  reversible shift /\ reversible dilate /\
  forall x e, split_rhs R unit (fun x _ _ => x) [shift; dilate]
             (split_rhs R unit (fun x _ _ => x) [shift; dilate] x e h) e (- h) <> x.
Proof. exact split_rhs_not_reversible. Qed.
Print Assumptions C38_rhs_order_refuted.

(** non-trivial reversible non-commuting flows for the Vlasov solver *)
Example C38_nonvacuous :
  reversible shift /\ reversible (fun f t => dilate f t) /\ ~ commute shift dilate /\
  split_vlasov R unit shift (fun f _ t => dilate f t) 1 tt 2 = 2 * exp 2 + 1.
Proof.
  destruct (split_rhs_not_reversible 1) as [A [B _]]; [lra|].
  split; [exact A|]. split; [exact B|]. split.
  - intros H. specialize (H 0 1 1). unfold shift, dilate in H. rewrite Rmult_0_l in H.
    assert (exp 1 = 1) by lra. assert (1 < exp 1) by (rewrite <- exp_0 at 1; apply exp_increasing; lra). lra.
  - unfold split_vlasov, shift, dilate. replace (2 / 2) with 1 by lra. ring.
Qed.

(** C49: for every step count (a non-positive one means no step), the time loop returns the
    state of the predictor-corrector recurrence and outputs one "iteration" event per step, with
    its number, its time, the state and the potential solved from that very state, then
    "last_iteration" with the final state; nothing depends on the initial content of the
    field buffers. *)
Theorem C49_predcorr : forall (St Phi E : Type) (boltzmann : St -> E -> R -> St) (solve : St -> Phi * E)
  fields0 f0 t0 dt steps,
  predcorr St Phi E boltzmann (fun f _ => solve f) fields0 f0 t0 dt steps =
  (pc_state boltzmann solve dt f0 (Z.to_nat steps),
   pc_output boltzmann solve t0 dt f0 (Z.to_nat steps)).
Proof. exact @predcorr_ok. Qed.
Print Assumptions C49_predcorr.

(** stopping after n steps and restarting from the state and time reached for m steps gives the
    same state and the same saved snapshots as n + m steps in one run (the snapshot at the
    restart time being saved once by each run). *)
Theorem C49_restart : forall (St Phi E : Type) (boltzmann : St -> E -> R -> St) (solve : St -> Phi * E)
  fields0 fields1 f0 t0 dt n m,
  (0 <= n)%Z -> (0 <= m)%Z ->
  let run := predcorr St Phi E boltzmann (fun f _ => solve f) in
  let '(f1, out1) := run fields0 f0 t0 dt n in
  let '(f2, out2) := run fields1 f1 (t0 + IZR n * dt) dt m in
  let '(f12, out12) := run fields0 f0 t0 dt (n + m)%Z in
  f12 = f2 /\ map snapshot out12 = map snapshot (removelast out1) ++ map snapshot out2.
Proof. exact @predcorr_restart. Qed.
Print Assumptions C49_restart.

(** with NullQNSolver the advections use a field nobody has initialised *)
Theorem C49_null_solver_refuted :
  exists (St Phi E : Type) (boltzmann : St -> E -> R -> St) f0 t0 dt steps fields0 fields1,
    fst (predcorr St Phi E boltzmann null_qnsolver fields0 f0 t0 dt steps) <>
    fst (predcorr St Phi E boltzmann null_qnsolver fields1 f0 t0 dt steps).
Proof. exact predcorr_null_uninitialised. Qed.
Print Assumptions C49_null_solver_refuted.

(** one step of f' = E, E = -f, phi = 2 f, dt = 1: the predictor gives 4, the corrector 4 *)
Example C49_nonvacuous :
  predcorr R R R (fun f e t => f + e * t) (fun f _ => (2 * f, - f)) (7, 7) 8 5 1 1 =
  (4, [Iteration R R 0 (5 + INR 0 * 1) 8 (2 * 8); LastIteration R R 1 (5 + INR 1 * 1) 4 (2 * 4)]).
Proof.
  rewrite (C49_predcorr R R R (fun f e t => f + e * t) (fun f => (2 * f, - f))).
  change (Z.to_nat 1) with 1%nat. unfold pc_output. cbn [pc_state seq map app fst snd].
  replace (8 + - (8 + - (8) * (1 / 2)) * 1) with 4 by lra. reflexivity.
Qed.
