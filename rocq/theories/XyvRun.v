(** The predictor-corrector run does not depend on the number of ranks. *)
From Coq Require Import Permutation Lia Lra.
From Verif Require Import MpiProofs MpiTransposeProofs QuadProofs PspInt PpfBasis PpfVolume XyvSpec XyvRange XyvVlasov XyvDensity.
Open Scope R_scope.

Lemma pos_two g a b idx : a <> b ->
  pos (sub_range [a; b] g) idx =
  (Z.to_nat (idx a - fst (select a g)) * count g b + Z.to_nat (idx b - fst (select b g)))%nat.
Proof.
  intros Hab. unfold pos, sub_range, count. cbn [map local_shape offset select fst snd].
  rewrite !Nat.eqb_refl. replace (Nat.eqb b a) with false by (symmetry; apply Nat.eqb_neq; auto).
  unfold shape_size. cbn [map snd nprod fold_right]. lia.
Qed.

Section Run.
Context {C : Type}.
Variables (g : idx_range) (P : nat) (lx lv : nat -> idx_range).
Hypothesis HC : good_setup g P.
Hypothesis Rx : layout_ranges g X2DSplit P lx.
Hypothesis Rv : layout_ranges g V2DSplit P lv.
Variables (charges masses : list R) (ielec : Z).
Hypothesis HS : good_species g charges masses ielec.
Variables (itp : nat -> interpolator C) (coordinate : nat -> Z -> R).
Variables (quad : list R) (w : Z -> Z -> R).
Hypothesis Hquad : buffer_holds (sub_range [GVX; GVY] g) quad (fun idx => w (idx GVX) (idx GVY)).
Variable solve : list R -> res (list R * (list R * list R)).
Hypothesis Hsolve : good_solver g solve.
Hypothesis Hconst : adiabatic_charge g charges = 0 \/ ignores_constants g solve.
Variable uninit : R.

Let xyr := sub_range [GX; GY] g.

Lemma grid_value_holds l : length l = range_size xyr -> buffer_holds xyr l (grid_value g l).
Proof.
  intros L. split; auto. intros idx Hi. rewrite field_at_pos.
  pose proof (pos_lt xyr idx (gxy_nodup g) Hi) as Hp. apply nth_error_rd.
  unfold grid_value. rewrite <- (pos_two g GX GY) by apply x_neq. apply nth_error_nth'. fold xyr. lia.
Qed.

Lemma density_list_holds F : buffer_holds xyr (density_list g charges w F)
  (fun idx => density g charges w F (idx GX) (idx GY)).
Proof.
  assert (L : length (density_list g charges w F) = range_size xyr).
  { unfold density_list. rewrite (flat_length (fun i j => density g charges w F (front_of g GX i) (front_of g GY j))).
    unfold xyr. rewrite size_two. reflexivity. }
  split; auto. intros idx Hi. rewrite field_at_pos. pose proof (pos_lt xyr idx (gxy_nodup g) Hi) as Hp.
  pose proof (proj1 (in_sub g [GX; GY] idx) Hi) as Hb.
  pose proof (Hb GX ltac:(cbn; auto)) as Hx. pose proof (Hb GY ltac:(cbn; auto)) as Hy.
  apply nth_error_rd. rewrite nth_error_nth' with (d := 0) by (rewrite L; exact Hp). f_equal.
  unfold xyr. rewrite (pos_two g GX GY) by apply x_neq. unfold density_list.
  rewrite (flat_nth (fun i j => density g charges w F (front_of g GX i) (front_of g GY j))) by lia.
  unfold front_of. rewrite !Z2Nat.id by lia. f_equal; lia.
Qed.

Lemma map_holds l F c : buffer_holds xyr l F -> buffer_holds xyr (map (fun r => r + c) l) (fun idx => F idx + c).
Proof.
  intros [L H]. split; [rewrite map_length; auto|]. intros idx Hi. specialize (H idx Hi).
  rewrite field_at_pos in *. apply rd_nth_error in H. apply nth_error_rd. erewrite map_nth_error by exact H. reflexivity.
Qed.

Lemma fields_ok F : exists phi ex ey, fields_of g charges w solve F = (phi, (ex, ey)) /\
  solve (density_list g charges w F) = Ok (phi, (ex, ey)) /\
  length phi = range_size xyr /\ length ex = range_size xyr /\ length ey = range_size xyr.
Proof.
  destruct (density_list_holds F) as [L _].
  destruct (Hsolve _ L) as (phi & ex & ey & E & L1 & L2 & L3).
  exists phi, ex, ey. unfold fields_of. rewrite E. repeat split; congruence.
Qed.

Lemma every_rank_repeat {A B} (op : nat -> A -> res B) x y : (forall r, op r x = Ok y) ->
  every_rank P op (repeat x P) = Ok (repeat y P).
Proof.
  intros H. unfold every_rank. rewrite (mapM_seq_ok _ (fun _ => y)).
  - f_equal. clear. generalize 0%nat. induction P as [|n IH]; intros s; cbn; [reflexivity|]. f_equal. apply IH.
  - intros r Hr. assert (E : rd (repeat x P) (Z.of_nat r) = Ok x).
    { apply nth_error_rd. rewrite nth_error_nth' with (d := x) by (rewrite repeat_length; lia).
      f_equal. apply nth_repeat. }
    rewrite E. cbn [bind]. apply H.
Qed.

Lemma qnsolver_ok f F : holds_field P lv f F ->
  qnsolver_xy g P lv charges quad solve f = Ok (repeat (fields_of g charges w solve F) P).
Proof.
  intros HF. unfold qnsolver_xy.
  destruct (mpi_density g P lv HC Rv charges masses ielec HS w quad f F Hquad HF) as (rho & E & Hr).
  rewrite E. cbn [bind].
  apply every_rank_repeat. intros _.
  assert (Er : rho = map (fun r => r + (INR P - 1) * adiabatic_charge g charges) (density_list g charges w F)).
  { destruct Hr as [Lr Hr].
    destruct (map_holds _ _ ((INR P - 1) * adiabatic_charge g charges) (density_list_holds F)) as [Ld Hd].
    apply (field_determined xyr _ _ (fun idx => kinetic_density g charges w F (idx GX) (idx GY) + INR P * adiabatic_charge g charges)
      (gxy_nodup g) Lr Ld Hr).
    intros idx Hi. rewrite (Hd idx Hi). f_equal. unfold density. lra. }
  destruct (fields_ok F) as (phi & ex & ey & Ef & Es & _). rewrite Ef, <- Es.
  destruct Hconst as [H0|Hig].
  - rewrite Er, H0. f_equal. rewrite <- (map_id (density_list g charges w F)) at 2. apply map_ext. intros. lra.
  - rewrite Er. apply Hig. apply (density_list_holds F).
Qed.

Lemma all_hold e : length e = range_size xyr -> forall A (x : A) (pr : A -> list R), pr x = e ->
  all_ranks_hold P g (map pr (repeat x P)) (grid_value g e).
Proof.
  intros L A x pr <-. split; [rewrite map_length, repeat_length; reflexivity|].
  intros b Hb. apply in_map_iff in Hb. destruct Hb as (y & <- & Hy). apply repeat_spec in Hy. subst y.
  apply grid_value_holds; auto.
Qed.

Lemma push_ok F0 dt f F : holds_field P lv f F ->
  exists f', mpi_split_vlasov g P lx lv charges masses ielec itp coordinate uninit
      (map snd (repeat (fields_of g charges w solve F0) P)) dt f = Ok f' /\
    holds_field P lv f' (push g itp coordinate charges masses ielec (snd (fields_of g charges w solve F0)) dt F).
Proof.
  intros HF. destruct (fields_ok F0) as (phi & ex & ey & Ef & _ & L1 & L2 & L3).
  apply (mpi_vlasov g P lx lv HC Rx Rv charges masses ielec HS itp coordinate uninit).
  - rewrite map_map. apply all_hold; rewrite Ef; auto.
  - rewrite map_map. apply all_hold; rewrite Ef; auto.
  - exact HF.
Qed.

Lemma lv_self r : (r < P)%nat -> lv r = sub_range [SP; GVX; GVY; GX; GY] (lv r).
Proof.
  intros Hr. pose proof (lv_nodup g P lv HC Rv r Hr) as Hn. pose proof (lv_dims g P lv HC Rv r Hr) as Hd.
  transitivity (sub_range (dims (lv r)) (lv r)); [|rewrite Hd; reflexivity].
  unfold sub_range, dims. rewrite map_map. rewrite <- (map_id (lv r)) at 1.
  apply map_ext_in. intros [d [a b]] Hi. cbn [fst]. rewrite (select_in _ d a b Hn Hi). reflexivity.
Qed.

Lemma output_ok last n dt f F F0 : holds_field P lv f F ->
  exists ev, output_event P lv uninit last n (INR n * dt) f (repeat (fields_of g charges w solve F0) P) = Ok ev /\
    event_shows P lv ev last n dt F (fst (fields_of g charges w solve F0)).
Proof.
  intros HF. unfold output_event.
  destruct (every_rank_holds P lv (fun r => sub_range [SP; GX; GY; GVX; GVY] (lv r)) f F F
    (fun r b => transpose_layout (local_shape (output_range lv r)) (repeat uninit (range_size (output_range lv r)))
                         (local_shape (lv r)) b)) as (out & E & H); auto.
  { intros r b Hr [Lb Hb].
    pose proof (lv_nodup g P lv HC Rv r Hr) as Hn. pose proof (lv_dims g P lv HC Rv r Hr) as Hd.
    assert (Hp : Permutation (local_shape (lv r)) (local_shape (output_range lv r))).
    { unfold local_shape at 1. rewrite (lv_self r Hr). unfold output_range, local_shape. apply Permutation_map.
      unfold sub_range at 1. unfold sub_range at 1. apply Permutation_map. cbn [l_order X2DSplit].
      change (Permutation [SP; GVX; GVY; GX; GY] [SP; GX; GY; GVX; GVY]).
      apply perm_skip. apply (Permutation_app_comm [GVX; GVY] [GX; GY]). }
    destruct (transpose_layout_spec (local_shape (output_range lv r)) (repeat uninit (range_size (output_range lv r)))
      (local_shape (lv r)) b Hp) as (o & Eo & Lo & Ho).
    - apply local_shape_nodup; auto.
    - rewrite local_shape_size; auto.
    - rewrite local_shape_size, repeat_length. reflexivity.
    - exists o. split; auto. split; [rewrite Lo, local_shape_size; reflexivity|].
      intros idx Hi.
      assert (Hi' : in_range idx (lv r)).
      { rewrite (lv_self r Hr). intros d a k Hin. apply (Hi d a k). unfold sub_range in *.
        apply in_map_iff in Hin. destruct Hin as (e & Ee & He). apply in_map_iff. exists e. split; auto. cbn in *. tauto. }
      specialize (Hb idx Hi'). rewrite field_at_pos in *. apply rd_nth_error in Hb. apply nth_error_rd. rewrite <- Hb.
      pose proof (Ho _ (in_range_bounds (lv r) idx Hn Hi')) as HH.
      unfold pos. rewrite <- HH. f_equal. }
  rewrite E. cbn [bind]. eexists. split; [reflexivity|].
  split; [reflexivity|]. split; [reflexivity|]. split; [reflexivity|]. split; [exact H|].
  cbn [ev_phi]. clear. generalize P. intros n. induction n as [|n IH]; cbn; [reflexivity|]. f_equal. exact IH.
Qed.

Let runF dt n F := run g itp coordinate charges masses ielec w solve dt n F.
Let phiF F := fst (fields_of g charges w solve F).

Theorem run_ok dt steps f F : holds_field P lv f F ->
  exists f' evs, predcorr_xy g P lx lv charges masses ielec quad itp coordinate uninit solve dt steps f = Ok (f', evs) /\
    holds_field P lv f' (runF dt (Z.to_nat steps) F) /\
    length evs = S (Z.to_nat steps) /\
    forall n, (n <= Z.to_nat steps)%nat -> exists ev, nth_error evs n = Some ev /\
      event_shows P lv ev (Nat.eqb n (Z.to_nat steps)) n dt (runF dt n F) (phiF (runF dt n F)).
Proof.
  intros HF. unfold predcorr_xy. set (N := Z.to_nat steps). cbv zeta.
  destruct (for_res_inv (fun n (st : list (list R) * list xyv_event) =>
      holds_field P lv (fst st) (runF dt n F) /\ length (snd st) = n /\
      forall k, (k < n)%nat -> exists ev, nth_error (snd st) k = Some ev /\
        event_shows P lv ev false k dt (runF dt k F) (phiF (runF dt k F)))
    N (predcorr_xy_step g P lx lv charges masses ielec quad itp coordinate uninit solve dt) (f, []))
    as ([f1 evs] & E & H1 & H2 & H3).
  - cbn [fst snd]. split; [exact HF|]. split; [reflexivity|]. intros k Hk. lia.
  - intros n [fn evs] Hn (H1 & H2 & H3). cbn [fst snd] in *. unfold predcorr_xy_step.
    rewrite (qnsolver_ok fn _ H1). cbn [bind].
    destruct (output_ok false n dt fn _ (runF dt n F) H1) as (ev & Ee & He).
    rewrite Ee. cbn [bind].
    destruct (push_ok (runF dt n F) (dt / 2) fn _ H1) as (fh & Eh & Hh). rewrite Eh. cbn [bind].
    rewrite (qnsolver_ok fh _ Hh). cbn [bind].
    destruct (push_ok (push g itp coordinate charges masses ielec (snd (fields_of g charges w solve (runF dt n F))) (dt / 2) (runF dt n F)) dt fn _ H1) as (f2 & E2 & H4).
    rewrite E2. cbn [bind]. eexists. split; [reflexivity|]. cbn [fst snd]. split; [exact H4|]. split.
    + rewrite app_length, H2. cbn. lia.
    + intros k Hk. destruct (Nat.eq_dec k n) as [->|Hkn].
      * exists ev. split; auto. rewrite nth_error_app2 by lia. rewrite H2, Nat.sub_diag. reflexivity.
      * rewrite nth_error_app1 by lia. apply H3. lia.
  - cbn [fst snd] in *. rewrite E. cbn [bind].
    rewrite (qnsolver_ok f1 _ H1). cbn [bind].
    destruct (output_ok true N dt f1 _ (runF dt N F) H1) as (ev & Ee & He). rewrite Ee. cbn [bind].
    exists f1, (evs ++ [ev]). split; [reflexivity|]. split; [exact H1|]. split.
    + rewrite app_length, H2. cbn. lia.
    + intros n Hn. destruct (Nat.eqb_spec n N) as [->|Hne].
      * exists ev. split; auto. rewrite nth_error_app2 by lia. rewrite H2, Nat.sub_diag. reflexivity.
      * rewrite nth_error_app1 by lia. apply H3. lia.
Qed.
End Run.
