(** Statements of the properties of the 2d2v code, and their examples. *)
From Coq Require Import Permutation Lia Lra.
From Verif Require Import XyvFftModel XyvFft MpiProofs MpiTransposeProofs XyvSpec XyvRange XyvVlasov XyvDensity XyvRun.
Open Scope R_scope.

Definition whole (g : idx_range) : idx_range := sub_range [SP; GVX; GVY; GX; GY] g.

Lemma whole_holder g P : good_setup g P -> holder g (whole g).
Proof.
  intros HC. split; [|split].
  - apply xy_nodup. apply HC.
  - reflexivity.
  - intros d Hd. unfold whole, sub_range. apply select_map. cbn in *. tauto.
Qed.

Lemma serial_density : forall g P charges masses ielec w quad f F,
  good_setup g P -> good_species g charges masses ielec ->
  buffer_holds (sub_range [GVX; GVY] g) quad (fun idx => w (idx GVX) (idx GVY)) -> buffer_holds (whole g) f F ->
  exists rho, charge_density_xy charges (whole g) (sub_range [GVX; GVY] g) quad f = Ok rho /\
    buffer_holds (sub_range [GX; GY] g) rho (fun idx => density g charges w F (idx GX) (idx GY)).
Proof.
  intros g P charges masses ielec w quad f F HC HS Hq HF.
  assert (Ev : sub_range [GVX; GVY] (whole g) = sub_range [GVX; GVY] g).
  { unfold whole, sub_range at 1. cbn [map]. unfold sub_range. rewrite !select_map by (cbn; tauto). reflexivity. }
  destruct (local_density_ok g charges masses ielec HS w (whole g) f F quad) as (rho & E & Hr); auto.
  - apply (whole_holder g P HC).
  - rewrite Ev in E. exists rho. split; auto. destruct Hr as [L Hr]. split; auto. intros idx Hi. rewrite Hr by auto.
    f_equal. unfold density. f_equal. rewrite Ev.
    set (h := fun iv : nat -> Z => w (iv GVX) (iv GVY) * S_at g charges F (idx GX) (idx GY) (iv GVX) (iv GVY)).
    change (Rsum (range_size (sub_range [GVX; GVY] g)) (fun k => h (global_of (sub_range [GVX; GVY] g) k)) = kinetic_density g charges w F (idx GX) (idx GY)).
    rewrite sum_two; [|apply v_neq|].
    + unfold kinetic_density. apply Rsum_ext. intros i Hi'. apply Rsum_ext. intros j Hj. reflexivity.
    + intros i j E1 E2. unfold h. rewrite E1, E2. reflexivity.
Qed.

Lemma density_mpi : forall g P lv charges masses ielec w quad f F,
  good_setup g P -> layout_ranges g V2DSplit P lv -> good_species g charges masses ielec ->
  buffer_holds (sub_range [GVX; GVY] g) quad (fun idx => w (idx GVX) (idx GVY)) -> holds_field P lv f F ->
  exists rho, mpi_charge_density g P lv charges quad f = Ok (repeat rho P) /\
    buffer_holds (sub_range [GX; GY] g) rho (fun idx =>
      kinetic_density g charges w F (idx GX) (idx GY) + INR P * adiabatic_charge g charges).
Proof. intros. eapply mpi_density; eauto. Qed.

Lemma density_agrees : forall g P lv charges masses ielec w quad f f1 F,
  good_setup g P -> layout_ranges g V2DSplit P lv -> good_species g charges masses ielec ->
  (fst (select SP g) + Z.of_nat (count g SP) = Z.of_nat (length charges))%Z ->
  buffer_holds (sub_range [GVX; GVY] g) quad (fun idx => w (idx GVX) (idx GVY)) -> holds_field P lv f F ->
  buffer_holds (whole g) f1 F ->
  exists rho, mpi_charge_density g P lv charges quad f = Ok (repeat rho P) /\
    charge_density_xy charges (whole g) (sub_range [GVX; GVY] g) quad f1 = Ok rho.
Proof.
  intros g P lv charges masses ielec w quad f f1 F HC Rv HS Hall Hq HF H1.
  destruct (density_mpi g P lv charges masses ielec w quad f F HC Rv HS Hq HF) as (rho & E & Hr).
  destruct (serial_density g P charges masses ielec w quad f1 F HC HS Hq H1) as (rho1 & E1 & Hr1).
  exists rho. split; auto. rewrite E1. f_equal. destruct Hr as [L Hr], Hr1 as [L1 Hr1].
  apply (field_determined (sub_range [GX; GY] g) _ _ _ (gxy_nodup g) L1 L Hr1).
  intros idx Hi. rewrite Hr by auto. f_equal. unfold density, adiabatic_charge.
  replace (_ =? _)%Z with true by lia. lra.
Qed.

Lemma vlasov_agrees : forall (C : Type) g P lx lv charges masses ielec (itp : nat -> interpolator C) coordinate uninit
    efield ex ey Ex Ey dt f f1 F,
  good_setup g P -> layout_ranges g X2DSplit P lx -> layout_ranges g V2DSplit P lv -> good_species g charges masses ielec ->
  all_ranks_hold P g (map fst efield) Ex -> all_ranks_hold P g (map snd efield) Ey ->
  buffer_holds (sub_range [GX; GY] g) ex Ex -> buffer_holds (sub_range [GX; GY] g) ey Ey ->
  holds_field P lv f F -> buffer_holds (whole g) f1 F ->
  exists f' f1' F', mpi_split_vlasov g P lx lv charges masses ielec itp coordinate uninit efield dt f = Ok f' /\
    split_vlasov_xy g charges masses ielec itp coordinate (whole g) (sub_range [GX; GY] g) (ex, ey) dt f1 = Ok f1' /\
    holds_field P lv f' F' /\ buffer_holds (whole g) f1' F'.
Proof.
  intros C g P lx lv charges masses ielec itp coordinate uninit efield ex ey Ex Ey dt f f1 F HC Rx Rv HS HX HY Hx Hy HF H1.
  destruct (mpi_vlasov g P lx lv HC Rx Rv charges masses ielec HS itp coordinate uninit efield Ex Ey dt f F HX HY HF) as (f' & E & H).
  destruct (serial_vlasov g P HC charges masses ielec HS itp coordinate ex ey Ex Ey dt f1 F Hx Hy H1) as (f1' & E1 & H1').
  exists f', f1', (vlasov_step g itp coordinate charges masses ielec Ex Ey dt F). auto.
Qed.

Lemma run_any : forall (C : Type) g P lx lv charges masses ielec (itp : nat -> interpolator C) coordinate quad w solve uninit dt steps f F,
  good_setup g P -> layout_ranges g X2DSplit P lx -> layout_ranges g V2DSplit P lv -> good_species g charges masses ielec ->
  buffer_holds (sub_range [GVX; GVY] g) quad (fun idx => w (idx GVX) (idx GVY)) ->
  good_solver g solve -> adiabatic_charge g charges = 0 \/ ignores_constants g solve ->
  holds_field P lv f F ->
  let F_at n := run g itp coordinate charges masses ielec w solve dt n F in
  exists f' evs, predcorr_xy g P lx lv charges masses ielec quad itp coordinate uninit solve dt steps f = Ok (f', evs) /\
    holds_field P lv f' (F_at (Z.to_nat steps)) /\
    length evs = S (Z.to_nat steps) /\
    forall n, (n <= Z.to_nat steps)%nat -> exists ev, nth_error evs n = Some ev /\
      event_shows P lv ev (Nat.eqb n (Z.to_nat steps)) n dt (F_at n) (fst (fields_of g charges w solve (F_at n))).
Proof.
  intros C g P lx lv charges masses ielec itp coordinate quad w solve uninit dt steps f F HC Rx Rv HS Hq Hs Hc HF F_at.
  exact (run_ok g P lx lv HC Rx Rv charges masses ielec HS itp coordinate quad w Hq solve Hs Hc uninit dt steps f F HF).
Qed.

(** the shipped simulation *)
Lemma landau_solver : forall g P clobber dx dy m0 c0 f0, good_setup g P ->
  let solve := fft_poisson clobber (count g GX) (count g GY) dx dy m0 c0 f0 in
  good_solver g solve /\ ignores_constants g solve.
Proof.
  intros g P clobber dx dy m0 c0 f0 HC solve.
  assert (Hpos : forall d, In d [GX; GY] -> (0 < count g d)%nat).
  { intros d Hd. destruct HC as (_ & _ & _ & _ & _ & _ & _ & H). apply H. cbn in *; tauto. }
  split.
  - intros rho L. unfold solve.
    destruct (fft_total clobber (count g GX) (count g GY) dx dy m0 c0 f0 (Hpos GX ltac:(cbn; auto)) (Hpos GY ltac:(cbn; auto)) rho)
      as (phi & ex & ey & E & L1 & L2 & L3).
    exists phi, ex, ey. rewrite size_two in L. rewrite E. repeat split; congruence.
  - intros rho c L. apply fft_shift; try (apply Hpos; cbn; auto). rewrite size_two in L. exact L.
Qed.

Lemma runs_agree : forall (C : Type) g P Q lx lv lx' lv' charges masses ielec (itp : nat -> interpolator C) coordinate quad w
    clobber dx dy m0 c0 f0 uninit uninit' dt steps f f1 F,
  good_setup g P -> layout_ranges g X2DSplit P lx -> layout_ranges g V2DSplit P lv ->
  good_setup g Q -> layout_ranges g X2DSplit Q lx' -> layout_ranges g V2DSplit Q lv' ->
  good_species g charges masses ielec ->
  buffer_holds (sub_range [GVX; GVY] g) quad (fun idx => w (idx GVX) (idx GVY)) ->
  let solve := fft_poisson clobber (count g GX) (count g GY) dx dy m0 c0 f0 in
  holds_field P lv f F -> holds_field Q lv' f1 F ->
  exists f' evs f1' evs' F',
    predcorr_xy g P lx lv charges masses ielec quad itp coordinate uninit solve dt steps f = Ok (f', evs) /\
    predcorr_xy g Q lx' lv' charges masses ielec quad itp coordinate uninit' solve dt steps f1 = Ok (f1', evs') /\
    holds_field P lv f' F' /\ holds_field Q lv' f1' F' /\
    length evs = length evs' /\
    forall n ev ev', nth_error evs n = Some ev -> nth_error evs' n = Some ev' ->
      exists last F_n phi_n, event_shows P lv ev last n dt F_n phi_n /\ event_shows Q lv' ev' last n dt F_n phi_n.
Proof.
  intros C g P Q lx lv lx' lv' charges masses ielec itp coordinate quad w clobber dx dy m0 c0 f0 uninit uninit' dt steps f f1 F
    HC Rx Rv HC' Rx' Rv' HS Hq solve HF HF'.
  destruct (landau_solver g P clobber dx dy m0 c0 f0 HC) as [Hs Hi].
  destruct (run_any C g P lx lv charges masses ielec itp coordinate quad w solve uninit dt steps f F HC Rx Rv HS Hq Hs (or_intror Hi) HF)
    as (f' & evs & E & H1 & H2 & H3).
  destruct (run_any C g Q lx' lv' charges masses ielec itp coordinate quad w solve uninit' dt steps f1 F HC' Rx' Rv' HS Hq Hs (or_intror Hi) HF')
    as (f1' & evs' & E' & H1' & H2' & H3').
  exists f', evs, f1', evs'. eexists. split; [exact E|]. split; [exact E'|]. split; [exact H1|]. split; [exact H1'|].
  split; [congruence|].
  intros n ev ev' En En'.
  assert (Hn : (n <= Z.to_nat steps)%nat).
  { assert (n < length evs)%nat; [|lia]. apply nth_error_Some. congruence. }
  destruct (H3 n Hn) as (ev1 & Ee & He). destruct (H3' n Hn) as (ev1' & Ee' & He').
  rewrite En in Ee. injection Ee as <-. rewrite En' in Ee'. injection Ee' as <-.
  do 3 eexists. split; [exact He|exact He'].
Qed.

(** ** Examples: 2 species of which the electrons are kinetic, 2 points in every direction, 2 ranks *)
Definition ex_g : idx_range := [(SP, (0%Z, 1%nat)); (GX, (0%Z, 2%nat)); (GY, (0%Z, 2%nat)); (GVX, (0%Z, 2%nat)); (GVY, (0%Z, 2%nat))].
Definition ex_local (L : layout) (r : nat) : idx_range :=
  match distribute_idx_range (l_distr L) (sub_range (l_order L) ex_g) 2 r with Ok x => x | _ => [] end.
Definition ex_F (idx : nat -> Z) : R := IZR (1 + idx GX + 2 * idx GY + 3 * idx GVX + 5 * idx GVY).
Definition ex_bufs : list (list R) :=
  map (fun r => map (fun k => ex_F (global_of (ex_local V2DSplit r) k)) (seq 0 (range_size (ex_local V2DSplit r)))) (seq 0 2).
Definition ex_charges : list R := [-1; 1].
Definition ex_masses : list R := [1; 1836].
Definition ex_quad : list R := [1; 1; 1; 1].

Lemma ex_setup : good_setup ex_g 2.
Proof.
  assert (N1 : NoDup (l_order X2DSplit)) by (repeat constructor; cbn; unfold SP, GX, GY, GVX, GVY; intuition lia).
  assert (N2 : NoDup (l_order V2DSplit)) by (repeat constructor; cbn; unfold SP, GX, GY, GVX, GVY; intuition lia).
  split; [|split; [|split; [|split; [|split; [|split; [|split]]]]]].
  - split; [exact N1|]. split; [|reflexivity]. intros d Hd. cbn in *. tauto.
  - split; [exact N2|]. split; [|reflexivity]. intros d Hd. cbn in *. tauto.
  - cbn. apply perm_skip. apply (Permutation_app_comm [GX; GY] [GVX; GVY]).
  - intros d H1 H2. cbn in *. unfold GX, GY, GVX, GVY in *. lia.
  - lia.
  - exists 2%nat. reflexivity.
  - exists 2%nat. reflexivity.
  - intros d Hd. cbn in Hd. destruct Hd as [<-|[<-|[<-|[<-|[<-|[]]]]]]; cbn; lia.
Qed.
Lemma ex_ranges L : L = X2DSplit \/ L = V2DSplit -> layout_ranges ex_g L 2 (ex_local L).
Proof.
  intros HL r Hr. assert (r = 0 \/ r = 1)%nat as [-> | ->] by lia; destruct HL as [-> | ->]; reflexivity.
Qed.
Lemma ex_species : good_species ex_g ex_charges ex_masses 0.
Proof. unfold good_species. cbn. lia. Qed.

(** buffers built from any function of the five directions *)
Lemma world_holds P local (F : (nat -> Z) -> R) : (forall r, (r < P)%nat -> NoDup (dims (local r))) ->
  (forall r i j, (r < P)%nat -> (forall d, In d (dims (local r)) -> i d = j d) -> F i = F j) ->
  holds_field P local (map (fun r => map (fun k => F (global_of (local r) k)) (seq 0 (range_size (local r)))) (seq 0 P)) F.
Proof.
  intros Hn HF. split; [rewrite map_length, seq_length; reflexivity|]. intros r Hr.
  exists (map (fun k => F (global_of (local r) k)) (seq 0 (range_size (local r)))). split.
  - erewrite map_nth_error; [reflexivity|].
    rewrite nth_error_nth' with (d := 0%nat) by (rewrite seq_length; auto). rewrite seq_nth; auto.
  - destruct (buffer_mapM (local r) (fun k => Ok (F (global_of (local r) k))) (fun k => F (global_of (local r) k)) F)
      as (b & E & H); auto.
    + intros idx Hi. apply (HF r); auto. intros d Hd. apply global_pos; auto.
    + rewrite (mapM_seq_ok _ (fun k => F (global_of (local r) k))) in E by auto. injection E as <-. exact H.
Qed.

Lemma ex_holds : holds_field 2 (ex_local V2DSplit) ex_bufs ex_F.
Proof.
  apply world_holds.
  - intros r Hr. apply (lv_nodup ex_g 2 (ex_local V2DSplit) ex_setup); auto. apply ex_ranges; auto.
  - intros r i j Hr H. rewrite (lv_dims ex_g 2 (ex_local V2DSplit) ex_setup) in H; [|apply ex_ranges; auto|auto].
    unfold ex_F. rewrite !H by (cbn; tauto). reflexivity.
Qed.
Lemma ex_quad_holds : buffer_holds (sub_range [GVX; GVY] ex_g) ex_quad (fun idx => (fun _ _ => 1) (idx GVX) (idx GVY)).
Proof.
  split; [reflexivity|]. intros idx Hi. rewrite field_at_pos.
  pose proof (pos_lt _ idx (gv_nodup ex_g 0%Z (fun _ _ => 0)) Hi) as Hp. apply nth_error_rd.
  change (range_size (sub_range [GVX; GVY] ex_g)) with 4%nat in Hp.
  generalize dependent (pos (sub_range [GVX; GVY] ex_g) idx). intros p Hp. assert (p = 0 \/ p = 1 \/ p = 2 \/ p = 3)%nat as [-> |[-> |[-> | ->]]] by lia; reflexivity.
Qed.

(** with the adiabatic ions the ranks do not get the charge density *)
Lemma adiabatic_twice : exists g P lv charges masses ielec w quad f F rho,
  good_setup g P /\ layout_ranges g V2DSplit P lv /\ good_species g charges masses ielec /\
  buffer_holds (sub_range [GVX; GVY] g) quad (fun idx => w (idx GVX) (idx GVY)) /\ holds_field P lv f F /\
  mpi_charge_density g P lv charges quad f = Ok (repeat rho P) /\
  ~ buffer_holds (sub_range [GX; GY] g) rho (fun idx => density g charges w F (idx GX) (idx GY)).
Proof.
  exists ex_g, 2%nat, (ex_local V2DSplit), ex_charges, ex_masses, 0%Z, (fun _ _ => 1), ex_quad, ex_bufs, ex_F.
  destruct (density_mpi ex_g 2 (ex_local V2DSplit) ex_charges ex_masses 0 (fun _ _ => 1) ex_quad ex_bufs ex_F
    ex_setup (ex_ranges V2DSplit (or_intror eq_refl)) ex_species ex_quad_holds ex_holds) as (rho & E & H).
  exists rho. split; [exact ex_setup|]. split; [apply ex_ranges; auto|]. split; [exact ex_species|].
  split; [exact ex_quad_holds|]. split; [exact ex_holds|]. split; [exact E|].
  intros [_ H2]. destruct H as [_ H].
  assert (Hi : in_range (fun _ => 0%Z) (sub_range [GX; GY] ex_g)).
  { intros d f n Hin. cbn in Hin. destruct Hin as [Hin|[Hin|[]]]; injection Hin as <- <- <-; lia. }
  specialize (H _ Hi). specialize (H2 _ Hi). rewrite H in H2. injection H2 as H2. revert H2.
  unfold density. assert (A : adiabatic_charge ex_g ex_charges = 1) by reflexivity. rewrite A. cbn [INR]. lra.
Qed.
