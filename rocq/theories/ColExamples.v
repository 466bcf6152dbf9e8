(** Concrete configurations. *)
From Coq Require Import Lia.
From Verif Require Import ColSpec ColProofs ColMain ColRun.
Open Scope nat_scope.

(** two species, electrons and ions *)
Definition ex_w : spaces := {| coord := fun _ i => IZR i;
  masses := Field [(Sp, Rng 0 2)] [Some 1%R; Some (1/2)%R];
  charges := Field [(Sp, Rng 0 2)] [Some (-1)%R; Some 1%R] |}.
Definition ex_sp : rng := Rng 0 2.
Definition ex_vpar : rng := Rng 0 3.
Definition ex_mu : rng := Rng 1 3.
Definition ex_intdmu : field := Field [(Mu, Rng 1 3)] [Some 1%R; Some 2%R; Some 1%R].
Definition ex_intdvpar : field := Field [(Vpar, Rng 0 3)] [Some 1%R; Some 4%R; Some 1%R].
(** known on a larger range of velocities: -1 .. 2 *)
Definition ex_Bstar : field := Field [(Sp, Rng 0 2); (Vpar, Rng (-1) 4)] (map (fun k => Some (INR k)) (seq 0 8)).
Definition ex_yaml : yaml := {| y_interspecies := true; y_nustar0 := Some 1%R |}.

Lemma ex_species : species_field (masses ex_w) ex_sp /\ species_field (charges ex_w) ex_sp.
Proof.
  split; (split; [split; [apply nodup1|reflexivity]|exists (Rng 0 2); split; [reflexivity|intros p H; exact H]]).
Qed.
Lemma ex_Bstar_wf : well_formed ex_Bstar.
Proof. split; [cbn; repeat constructor; cbn; intuition discriminate|reflexivity]. Qed.
Lemma ex_within : within [(Sp, ex_sp); (Vpar, ex_vpar)] (f_range ex_Bstar).
Proof.
  intros p H. cbn [f_range ex_Bstar]. rewrite !inside_cons in *. cbn in *. destruct H as (H1 & H2 & _).
  split; [lia|split; [lia|intros ? ? []]].
Qed.
Lemma ex_config : forall intdmu intdvpar, exists q,
  vparmu_configuration ex_w ex_yaml ex_sp ex_vpar ex_mu intdmu intdvpar 1 ex_Bstar = Ok q /\
  documented ex_w true ex_sp ex_vpar ex_mu intdmu intdvpar 1 ex_Bstar (operator_args q).
Proof.
  intros m v. destruct ex_species as [S1 S2].
  destruct (vparmu_ok ex_w ex_yaml ex_sp ex_vpar ex_mu m v 1%R ex_Bstar (Rng 0 2) (Rng (-1) 4) S1 S2 ex_Bstar_wf
    eq_refl ex_within) as [[_ N]|[_ H]]; [|exact H].
  exfalso. apply N. reflexivity.
Qed.
Lemma ex_masses_written : forall s, inside [(Sp, ex_sp)] (on_sp s) ->
  written (at_point (masses ex_w) (on_sp s)) /\ written (at_point (charges ex_w) (on_sp s)).
Proof.
  intros s H. apply inside_cons in H. cbn in H. destruct H as [H _].
  assert (s = 0 \/ s = 1)%Z as [-> | ->] by lia; (split; eexists; reflexivity).
Qed.
Lemma ex_Bstar_written : forall s v, inside [(Sp, ex_sp); (Vpar, ex_vpar)] (sp_vpar s v) ->
  written (at_point ex_Bstar (sp_vpar s v)).
Proof.
  intros s v H. rewrite !inside_cons in H. cbn in H. destruct H as (H1 & H2 & _).
  assert (s = 0 \/ s = 1)%Z as [-> | ->] by lia; assert (v = 0 \/ v = 1 \/ v = 2)%Z as [-> |[-> | ->]] by lia;
    eexists; reflexivity.
Qed.
Lemma ex_enough : exists q, vparmu_configuration ex_w ex_yaml ex_sp ex_vpar ex_mu ex_intdmu ex_intdvpar 1 ex_Bstar = Ok q /\
  enough (operator_args q) = true /\ points (operator_args q) = 18.
Proof.
  destruct (ex_config ex_intdmu ex_intdvpar) as (q & E & D). exists q. split; [exact E|]. split.
  - apply (vparmu_enough _ _ _ _ _ _ _ _ _ _ D ex_masses_written ex_Bstar_written).
    + intros k Hk. cbn in Hk. assert (k = 0 \/ k = 1 \/ k = 2) as [-> |[-> | ->]] by lia; eexists; reflexivity.
    + intros k Hk. cbn in Hk. assert (k = 0 \/ k = 1 \/ k = 2) as [-> |[-> | ->]] by lia; eexists; reflexivity.
  - destruct D as ((E1 & E2 & E3) & (T1 & T2 & T3 & _) & _). unfold points.
    rewrite E1, E2, E3, T1, T2, T3. reflexivity.
Qed.

Lemma not_pow2_3 : ~ power_of_two 3.
Proof. intros H. apply pow2_test_iff in H. vm_compute in H. discriminate. Qed.

Lemma pow2_all_refuted :
  ~ (forall w spoofed y rg intdmu intdvpar q d r,
       new_config_data w spoofed y rg intdmu intdvpar = Some (Ok q) -> In (d, r) rg -> power_of_two (r_size r)).
Proof.
  intros H. destruct ex_species as [S1 S2].
  destruct (config_data_ok ex_w vparmu_spoofed ex_yaml [(Sp, ex_sp); (Vpar, ex_vpar); (Mu, ex_mu)] ex_intdmu ex_intdvpar
    ex_sp (Rng 0 1) (Rng 0 1) (Rng 0 1) ex_vpar ex_mu) as (r & E & D).
  { cbn. repeat constructor; cbn; intuition discriminate. }
  1, 2, 3, 4, 5, 6: cbn; auto.
  { exact S1. } { exact S2. }
  destruct D as [[_ D]|[_ (q & -> & _)]].
  - apply D. split; [apply pow_1|split; apply pow_1].
  - apply not_pow2_3. apply (H _ _ _ _ _ _ q Mu ex_mu E). right. right. left. reflexivity.
Qed.
Lemma uniform_refuted :
  ~ (forall uniform, class_compiles uniform = true -> uniform Vpar = true /\ uniform Mu = true).
Proof.
  intros H. destruct (H (fun d => dim_eqb d Vpar) eq_refl) as [_ E]. discriminate E.
Qed.
Definition short_intdmu : field := Field [(Mu, Rng 1 1)] [Some 1%R].
Lemma coefficients_refuted :
  ~ (forall w y sp vpar mu intdmu intdvpar B Bstar q,
       well_formed intdmu -> well_formed intdvpar ->
       vparmu_configuration w y sp vpar mu intdmu intdvpar B Bstar = Ok q ->
       (forall s, inside [(Sp, sp)] (on_sp s) -> written (at_point (masses w) (on_sp s)) /\ written (at_point (charges w) (on_sp s))) ->
       (forall s v, inside [(Sp, sp); (Vpar, vpar)] (sp_vpar s v) -> written (at_point Bstar (sp_vpar s v))) ->
       enough (operator_args q) = true).
Proof.
  intros H. destruct (ex_config short_intdmu ex_intdvpar) as (q & E & D).
  assert (W1 : well_formed short_intdmu) by (split; [apply nodup1|reflexivity]).
  assert (W2 : well_formed ex_intdvpar) by (split; [apply nodup1|reflexivity]).
  pose proof (H _ _ _ _ _ _ _ _ _ q W1 W2 E ex_masses_written ex_Bstar_written) as En.
  destruct D as ((E1 & E2 & E3) & _ & _ & _ & _ & _ & _ & _ & Q1 & _).
  unfold enough in En. cbv zeta in En. cbn [forallb] in En. rewrite E1, Q1 in En.
  rewrite !Bool.andb_true_iff in En. destruct En as (_ & _ & _ & _ & (En & _) & _). cbn in En. discriminate.
Qed.

(** two operators used in turn *)
Definition ex_collide (a : koliop_args) (dt : R) (f : list R) : list R := map (fun x => (x + dt)%R) f.
Definition ex_prog (q : config_data) : list cmd :=
  [New 0 q; New 1 q; Apply 0 0 2%R; Apply 1 0 3%R; Destroy 0; New 0 q; Destroy 1; Destroy 0].
Lemma ex_prog_means : exists q e b,
  means ex_collide (ex_prog q) (fun _ => None) [repeat 1%R 18; [5%R]] e b /\ (forall v, e v = None) /\
  b = [repeat 6%R 18; [5%R]].
Proof.
  destruct ex_enough as (q & _ & En & Pt). exists q. eexists. eexists. unfold ex_prog. split; [|split].
  - eapply M_new; [reflexivity|exact En|]. eapply M_new; [reflexivity|exact En|].
    eapply M_apply; [reflexivity|reflexivity|rewrite Pt; cbn; lia|].
    eapply M_apply; [reflexivity|reflexivity|rewrite Pt; unfold collided; rewrite Pt; cbn; lia|].
    eapply M_destroy; [reflexivity|]. eapply M_new; [reflexivity|exact En|].
    eapply M_destroy; [reflexivity|]. eapply M_destroy; [reflexivity|]. constructor.
  - intros v. unfold bind_obj. destruct v as [|[|v]]; reflexivity.
  - unfold collided. rewrite Pt. cbn. replace (1 + 2 + 3)%R with 6%R by lra. reflexivity.
Qed.

Lemma copies_refuted :
  ~ (forall collide status l bufs r, (forall n, status n = true) ->
       (forall v q, In (New v q) l -> enough (operator_args q) = true) ->
       run collide status l (start bufs) = Some r -> r <> Ub).
Proof.
  intros H. destruct ex_enough as (q & _ & En & _).
  refine (H ex_collide (fun _ => true) [New 0 q; CopyObj 0 1; Destroy 0; Destroy 1] [] Ub (fun _ => eq_refl) _ _ eq_refl).
  - intros v q' [E|[E|[E|[E|[]]]]]; try discriminate. injection E as <- <-. exact En.
  - exact (proj1 (copy_ub ex_collide (fun _ => true) 0 1 q [] ltac:(discriminate) En (fun _ => eq_refl))).
Qed.
Lemma sizes_refuted :
  ~ (forall collide status q bufs i dt r, (forall n, status n = true) -> enough (operator_args q) = true ->
       i < length bufs -> run collide status [New 0 q; Apply 0 i dt] (start bufs) = Some r -> r <> Ub).
Proof.
  intros H. destruct ex_enough as (q & _ & En & Pt).
  refine (H ex_collide (fun _ => true) q [[1%R]] 0 1%R Ub (fun _ => eq_refl) En _ _ eq_refl); [cbn; lia|].
  apply (small_ub ex_collide (fun _ => true) 0 q 0 1%R [[1%R]] [1%R] En (fun _ => eq_refl) eq_refl). rewrite Pt. cbn. lia.
Qed.

(** [vpar, sp] replicated along r into [sp, r, vpar] *)
Definition ex_src : field := Field [(Vpar, Rng 0 2); (Sp, Rng 0 2)] [Some 1%R; Some 2%R; Some 3%R; Some 4%R].
Definition ex_dst : field := alloc [(Sp, Rng 0 2); (Rr, Rng 5 2); (Vpar, Rng 0 2)].
Lemma ex_copy_hyps : well_formed ex_dst /\ well_formed ex_src /\
  incl (dims (f_range ex_src)) (dims (f_range ex_dst)) /\ within (f_range ex_dst) (f_range ex_src).
Proof.
  split; [|split; [|split]].
  - split; [cbn; repeat constructor; cbn; intuition discriminate|reflexivity].
  - split; [cbn; repeat constructor; cbn; intuition discriminate|reflexivity].
  - intros d [<-|[<-|[]]]; cbn; auto.
  - intros p H. cbn [f_range ex_dst ex_src alloc] in *. rewrite !inside_cons in *. tauto.
Qed.
