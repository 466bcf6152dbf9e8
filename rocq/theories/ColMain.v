(** The configuration data, and what koliop receives. *)
From Coq Require Import Lia.
From Verif Require Import ColSpec ColProofs.
Open Scope nat_scope.

Lemma find_in : forall (rg : idx_range) d r, NoDup (dims rg) -> In (d, r) rg -> find_dim d rg = Some r.
Proof.
  induction rg as [|[e q] rg IH]; intros d r N H; [destruct H|].
  inversion N as [|? ? N1 N2]; subst. cbn. destruct H as [E|H].
  - injection E as -> ->. rewrite dim_eqb_refl. reflexivity.
  - destruct (dim_eqb d e) eqn:E.
    + apply dim_eqb_iff in E. subst e. exfalso. apply N1. apply in_map_iff. exists (d, r). split; [reflexivity|exact H].
    + apply IH; assumption.
Qed.
Lemma extract_1d_ok : forall spoofed rg d r, NoDup (dims rg) -> has_range spoofed rg d r ->
  extract_1d spoofed d rg = Some r.
Proof.
  intros spoofed rg d r N H. unfold extract_1d, has_range in *. destruct (spoofed d); [subst; reflexivity|].
  apply find_in; assumption.
Qed.
Lemma extract_md_ok : forall spoofed rg l, NoDup (dims rg) ->
  (forall d r, In (d, r) l -> has_range spoofed rg d r) -> extract_md spoofed (dims l) rg = Some l.
Proof.
  intros spoofed rg l N. induction l as [|[d r] l IH]; intros H; [reflexivity|].
  change (dims ((d, r) :: l)) with (d :: dims l). cbn [extract_md]. rewrite (extract_1d_ok spoofed rg d r N) by (apply H; left; reflexivity).
  rewrite IH; [reflexivity|]. intros e q Hq. apply H. right. exact Hq.
Qed.

Lemma fill_ok : forall f v, well_formed f -> fill f v = Ok (Field (f_range f) (repeat (Some v) (volume (f_range f)))).
Proof.
  intros [rg b] v [N L]. cbn [f_range f_data] in *. unfold fill, for_each_write. cbn [f_range].
  apply (write_each_ok rg _ (indices rg) (repeat (Some v) (volume rg)) [] b).
  - rewrite <- indices_length. generalize (indices rg) as l. induction l; cbn; constructor; [reflexivity|exact IHl].
  - rewrite indices_length. exact L.
  - intros k ix Hk. cbn. apply offset_nth; assumption.
Qed.

Lemma inside_1d : forall d r i, (r_front r <= i < r_front r + Z.of_nat (r_size r))%Z ->
  forall p : point, p d = i -> inside [(d, r)] p.
Proof. intros d r i H p E. apply inside_cons. split; [lia|intros ? ? []]. Qed.
Lemma position_1d : forall d r p, position [(d, r)] p = Z.to_nat (p d - r_front r).
Proof. intros. cbn. lia. Qed.

Lemma array_1d : forall d r f' (v : point -> option cell), f_range f' = [(d, r)] -> well_formed f' ->
  (forall p, inside [(d, r)] p -> at_point f' p = v p) ->
  forall u, (forall p, inside [(d, r)] p -> v p = u (p d)) -> array_of r u (f_data f').
Proof.
  intros d r f' v R1 W V u U. split.
  - rewrite (proj2 W), R1. cbn. lia.
  - intros i Hi. pose (p := (fun _ => (r_front r + Z.of_nat i)%Z) : point).
    assert (Hp : inside [(d, r)] p) by (apply (inside_1d d r (r_front r + Z.of_nat i)%Z); [lia|reflexivity]).
    specialize (V p Hp). unfold at_point in V. rewrite R1, position_1d in V.
    replace (p d - r_front r)%Z with (Z.of_nat i) in V by (unfold p; lia). rewrite Nat2Z.id in V.
    rewrite V, (U p Hp). reflexivity.
Qed.

Lemma nodup1 : forall d r, NoDup (dims [(d, r) : dim * rng]).
Proof. intros. constructor; [intros []|constructor]. Qed.
Lemma slice_ok : forall sp src, species_field src sp ->
  exists f, deepcopy_slice (alloc [(Sp, sp)]) src = Ok f /\
    array_of sp (fun s => at_point src (on_sp s)) (f_data f).
Proof.
  intros sp src [W (all & Ra & Hw)].
  destruct (replicate_ok (alloc [(Sp, sp)]) src (alloc_wf _ (nodup1 Sp sp)) W) as (f & E & R1 & Wf & V).
  - rewrite Ra. intros d [<-|[]]. left. reflexivity.
  - rewrite Ra. exact Hw.
  - exists f. split; [exact E|]. cbn [f_range alloc] in *.
    apply (array_1d Sp sp f (at_point src) R1 Wf V). intros p Hp. unfold at_point. rewrite Ra. reflexivity.
Qed.
Lemma dump_ok : forall co d r, exists f, dump_coordinates co d (alloc [(d, r)]) = Ok f /\
  array_of r (fun i => Some (Some (co d i))) (f_data f).
Proof.
  intros co d r.
  destruct (for_each_points (alloc [(d, r)])
    (fun ix => match find_dim d ix with Some i => Ok (Some (co d i)) | None => Ub end)
    (fun p => Some (co d (p d))) (alloc_wf _ (nodup1 d r))) as (f & E & R1 & W & V).
  { intros p _. rewrite find_canon by (left; reflexivity). reflexivity. }
  exists f. split; [exact E|].
  apply (array_1d d r f (fun p => Some (Some (co d (p d)))) R1 W V). reflexivity.
Qed.

(** ** The configuration of any geometry *)
Theorem config_data_ok : forall w spoofed y rg intdmu intdvpar sp ph rr th vp mu, NoDup (dims rg) ->
  has_range spoofed rg Sp sp -> has_range spoofed rg Phi ph -> has_range spoofed rg Rr rr ->
  has_range spoofed rg Theta th -> has_range spoofed rg Vpar vp -> has_range spoofed rg Mu mu ->
  species_field (masses w) sp -> species_field (charges w) sp ->
  exists r, new_config_data w spoofed y rg intdmu intdvpar = Some r /\
  (r = Throw /\ ~ (power_of_two (r_size rr) /\ power_of_two (r_size th) /\ power_of_two (r_size ph)) \/
   (power_of_two (r_size rr) /\ power_of_two (r_size th) /\ power_of_two (r_size ph)) /\
   exists q, r = Ok q /\
    (m_sp_extent q = r_size sp /\ m_phi_extent q = r_size ph /\ m_r_extent q = r_size rr /\
     m_theta_extent q = r_size th /\ m_vpar_extent q = r_size vp /\ m_mu_extent q = r_size mu /\
     m_interspecies q = y_interspecies y /\ m_coeff_intdmu q = intdmu /\ m_coeff_intdvpar q = intdvpar) /\
    array_of sp (fun s => at_point (masses w) (on_sp s)) (f_data (m_hat_As q)) /\
    array_of sp (fun s => at_point (charges w) (on_sp s)) (f_data (m_hat_Zs q)) /\
    array_of mu (fun i => Some (Some (coord w Mu i))) (f_data (m_mug q)) /\
    array_of vp (fun i => Some (Some (coord w Vpar i))) (f_data (m_vparg q)) /\
    f_data (m_mask_buffer_r q) = repeat (Some 0%R) (r_size rr) /\
    f_data (m_mask_LIM q) = repeat (Some 0%R) (r_size th * r_size rr) /\
    m_B_norm q = alloc [(Theta, th); (Rr, rr)] /\
    m_Bstar_s q = alloc [(Sp, sp); (Theta, th); (Rr, rr); (Vpar, vp)] /\
    m_coeff_AD q = alloc [(Rr, rr)]).
Proof.
  intros w spoofed y rg intdmu intdvpar sp ph rr th vp mu N Hsp Hph Hrr Hth Hvp Hmu M C.
  unfold new_config_data. cbv zeta.
  assert (X : forall l, (forall d r, In (d, r) l -> has_range spoofed rg d r) ->
    extract_md spoofed (dims l) rg = Some l) by (intros l; apply extract_md_ok; exact N).
  pose proof (X [(Sp, sp)]) as X1. pose proof (X [(Rr, rr)]) as X2. pose proof (X [(Theta, th); (Rr, rr)]) as X3.
  pose proof (X [(Sp, sp); (Theta, th); (Rr, rr); (Vpar, vp)]) as X4. pose proof (X [(Mu, mu)]) as X5.
  pose proof (X [(Vpar, vp)]) as X6. pose proof (X [(Theta, th)]) as X7. pose proof (X [(Phi, ph)]) as X8.
  cbn [dims map fst] in *.
  assert (Y : forall l, Forall (fun x => has_range spoofed rg (fst x) (snd x)) l ->
    forall d r, In (d, r) l -> has_range spoofed rg d r).
  { intros l F d r H. rewrite Forall_forall in F. exact (F (d, r) H). }
  rewrite X1 by (apply Y; repeat constructor; assumption). rewrite X2 by (apply Y; repeat constructor; assumption).
  rewrite X3 by (apply Y; repeat constructor; assumption). rewrite X4 by (apply Y; repeat constructor; assumption).
  rewrite X5 by (apply Y; repeat constructor; assumption). rewrite X6 by (apply Y; repeat constructor; assumption).
  rewrite X7 by (apply Y; repeat constructor; assumption). rewrite X8 by (apply Y; repeat constructor; assumption).
  clear X X1 X2 X3 X4 X5 X6 X7 X8 Y.
  eexists. split; [reflexivity|].
  assert (S1 : forall d r, size [(d, r) : dim * rng] = r_size r) by (intros; cbn; lia).
  rewrite !S1.
  destruct (pow2_test (r_size rr) && pow2_test (r_size th) && pow2_test (r_size ph)) eqn:P; cbn [negb].
  - right. rewrite !Bool.andb_true_iff, !pow2_test_iff in P. destruct P as [[P1 P2] P3].
    split; [split; [exact P1|split; assumption]|].
    destruct (slice_ok sp (masses w) M) as (fA & EA & VA). destruct (slice_ok sp (charges w) C) as (fZ & EZ & VZ).
    destruct (dump_ok (coord w) Mu mu) as (fm & Em & Vm). destruct (dump_ok (coord w) Vpar vp) as (fv & Ev & Vv).
    rewrite EA, EZ, Em, Ev. cbn [bind].
    rewrite !fill_ok by (apply alloc_wf; cbn; repeat constructor; cbn; intuition discriminate).
    cbn [bind f_range alloc].
    eexists. split; [reflexivity|]. cbn [m_sp_extent m_phi_extent m_r_extent m_theta_extent m_vpar_extent m_mu_extent
      m_interspecies m_coeff_intdmu m_coeff_intdvpar m_hat_As m_hat_Zs m_mug m_vparg m_mask_buffer_r m_mask_LIM
      m_B_norm m_Bstar_s m_coeff_AD f_data].
    split; [repeat (split; [reflexivity|]); reflexivity|].
    split; [exact VA|]. split; [exact VZ|]. split; [exact Vm|]. split; [exact Vv|].
    split; [f_equal; cbn; lia|]. split; [f_equal; cbn; lia|].
    split; [reflexivity|]. split; reflexivity.
  - left. split; [reflexivity|]. intros (P1 & P2 & P3). apply pow2_test_iff in P1, P2, P3.
    rewrite P1, P2, P3 in P. discriminate.
Qed.

(** ** The (species, vpar, mu) geometry *)
Lemma pow_1 : power_of_two 1.
Proof. exists 0. reflexivity. Qed.
Theorem vparmu_ok : forall w y sp vpar mu intdmu intdvpar B Bstar bs bv,
  species_field (masses w) sp -> species_field (charges w) sp ->
  well_formed Bstar -> f_range Bstar = [(Sp, bs); (Vpar, bv)] ->
  within [(Sp, sp); (Vpar, vpar)] [(Sp, bs); (Vpar, bv)] ->
  vparmu_configuration w y sp vpar mu intdmu intdvpar B Bstar = Throw /\ y_nustar0 y <> Some 1%R \/
  y_nustar0 y = Some 1%R /\
  exists q, vparmu_configuration w y sp vpar mu intdmu intdvpar B Bstar = Ok q /\
    documented w (y_interspecies y) sp vpar mu intdmu intdvpar B Bstar (operator_args q).
Proof.
  intros w y sp vpar mu intdmu intdvpar B Bstar bs bv M C WB RB HB.
  destruct (config_data_ok w vparmu_spoofed y [(Sp, sp); (Vpar, vpar); (Mu, mu)] intdmu intdvpar
    sp (Rng 0 1) (Rng 0 1) (Rng 0 1) vpar mu) as (r & E & D).
  { cbn. repeat constructor; cbn; intuition discriminate. }
  1, 2, 3, 4, 5, 6: cbn; auto.
  { exact M. } { exact C. }
  unfold vparmu_configuration. rewrite E. clear E. cbn [r_size] in D.
  destruct D as [[_ D]|[_ (q & -> & (D1 & D2 & D3 & D4 & D5 & D6 & D7 & D8 & D9) & VA & VZ & Vm & Vv & K1 & K2 & K3 & K4 & K5)]].
  { exfalso. apply D. split; [apply pow_1|split; apply pow_1]. }
  cbn [bind].
  destruct (y_nustar0 y) as [x|] eqn:EN; cbn [differs_from_1].
  2: { left. split; [reflexivity|discriminate]. }
  destruct (Req_EM_T x 1) as [->|NE].
  2: { left. split; [reflexivity|]. intros H. injection H as ->. congruence. }
  right. split; [reflexivity|]. unfold data_initialisation. rewrite K3, K4, K5.
  rewrite !fill_ok by (apply alloc_wf; cbn; repeat constructor; cbn; intuition discriminate). cbn [bind f_range alloc].
  destruct (replicate_ok (alloc [(Sp, sp); (Theta, Rng 0 1); (Rr, Rng 0 1); (Vpar, vpar)]) Bstar) as (f & E & R1 & W & V).
  { apply alloc_wf. cbn. repeat constructor; cbn; intuition discriminate. }
  { exact WB. }
  { rewrite RB. intros d [<-|[<-|[]]]; cbn; auto. }
  { rewrite RB. cbn [f_range alloc]. intros p Hp. apply HB. rewrite !inside_cons in Hp. rewrite !inside_cons. tauto. }
  cbn [alloc f_range] in R1, V. rewrite E. cbn [bind].
  eexists. split; [reflexivity|].
  unfold documented, operator_args, init_args.
  cbn [k_mu k_vpar k_species k_tor1 k_tor2 k_tor3 k_local_tor1 k_local_tor2 k_off_r k_off_theta k_separatrix
    k_interspecies k_sol k_limiter k_hat_As k_hat_Zs k_mug k_vparg k_intdmu k_intdvpar k_AD_r k_mask_buffer_r
    k_mask_limiter k_B_norm k_Bstar_s m_sp_extent m_phi_extent m_r_extent m_theta_extent m_vpar_extent m_mu_extent
      m_interspecies m_coeff_intdmu m_coeff_intdvpar m_hat_As m_hat_Zs m_mug m_vparg m_mask_buffer_r m_mask_LIM
      m_B_norm m_Bstar_s m_coeff_AD f_data].
  rewrite D1, D2, D3, D4, D5, D6, D7, D8, D9, K1, K2.
  split; [split; [reflexivity|split; reflexivity]|].
  split; [repeat (split; [reflexivity|]); reflexivity|].
  split; [split; [reflexivity|split; reflexivity]|].
  split; [split; [reflexivity|split; reflexivity]|].
  split; [exact VA|]. split; [exact VZ|]. split; [exact Vm|]. split; [exact Vv|].
  do 6 (split; [reflexivity|]).
  split; [rewrite (proj2 W), R1; cbn; lia|].
  intros s v Hs Hv.
  pose (p := sp_vpar (r_front sp + Z.of_nat s) (r_front vpar + Z.of_nat v)).
  assert (Hp : inside [(Sp, sp); (Theta, Rng 0 1); (Rr, Rng 0 1); (Vpar, vpar)] p).
  { rewrite !inside_cons. cbn. split; [lia|split; [lia|split; [lia|split; [lia|intros ? ? []]]]]. }
  specialize (V p Hp). fold p. rewrite <- V. unfold at_point. rewrite R1. f_equal.
  cbn. replace (r_front sp + Z.of_nat s - r_front sp)%Z with (Z.of_nat s) by lia.
  replace (r_front vpar + Z.of_nat v - r_front vpar)%Z with (Z.of_nat v) by lia. rewrite !Nat2Z.id. lia.
Qed.

(** ** Memory given to koliop *)
Definition written (c : option cell) : Prop := exists r, c = Some (Some r).
Lemma enough_full : forall n l, (forall i, i < n -> written (nth_error l i)) ->
  (n <=? length l) && forallb (fun c : cell => match c with Some _ => true | None => false end) (firstn n l) = true.
Proof.
  intros n l H. apply Bool.andb_true_iff.
  assert (L : n <= length l).
  { destruct n; [lia|]. destruct (H n) as (r & E); [lia|]. assert (n < length l) by (apply nth_error_Some; congruence). lia. }
  split; [apply Nat.leb_le; exact L|].
  apply forallb_forall. intros c Hc. apply In_nth_error in Hc. destruct Hc as (i & Hi).
  assert (i < n). { assert (i < length (firstn n l)) by (apply nth_error_Some; congruence). rewrite firstn_length in *. lia. }
  destruct (H i) as (r & E); [assumption|].
  rewrite <- (firstn_skipn n l) in E. rewrite nth_error_app1 in E by (apply nth_error_Some; congruence).
  rewrite Hi in E. injection E as ->. reflexivity.
Qed.
Theorem vparmu_enough : forall w i sp vpar mu intdmu intdvpar B Bstar a,
  documented w i sp vpar mu intdmu intdvpar B Bstar a ->
  (forall s, inside [(Sp, sp)] (on_sp s) -> written (at_point (masses w) (on_sp s)) /\ written (at_point (charges w) (on_sp s))) ->
  (forall s v, inside [(Sp, sp); (Vpar, vpar)] (sp_vpar s v) -> written (at_point Bstar (sp_vpar s v))) ->
  (forall k, k < r_size mu -> written (nth_error (f_data intdmu) k)) ->
  (forall k, k < r_size vpar -> written (nth_error (f_data intdvpar) k)) ->
  enough a = true.
Proof.
  intros w i sp vpar mu intdmu intdvpar B Bstar a
    ((E1 & E2 & E3) & (T1 & T2 & T3 & _) & _ & _ & (LA & VA) & (LZ & VZ) & (Lm & Vm) & (Lv & Vv) & Q1 & Q2 & Q3 & Q4 & Q5 & Q6 & LB & VB)
    HS HB Hm Hv.
  unfold enough. cbv zeta. rewrite T1, T2, E1, E2, E3, Q1, Q2, Q3, Q4, Q5, Q6. cbn [forallb].
  assert (I1 : forall k, k < r_size sp -> inside [(Sp, sp)] (on_sp (r_front sp + Z.of_nat k))).
  { intros k Hk. apply inside_cons. cbn. split; [lia|intros ? ? []]. }
  repeat rewrite enough_full; [reflexivity|..].
  - intros k Hk. replace (r_size sp * (1 * 1) * r_size vpar) with (r_size sp * r_size vpar) in Hk by lia.
    assert (Hv0 : r_size vpar <> 0) by (destruct (r_size vpar); lia).
    pose proof (Nat.div_mod k (r_size vpar) Hv0) as DM. pose proof (Nat.mod_upper_bound k (r_size vpar) Hv0).
    assert (k / r_size vpar < r_size sp) by (apply Nat.div_lt_upper_bound; lia).
    rewrite DM. rewrite (Nat.mul_comm (r_size vpar)). rewrite VB by assumption. apply HB.
    rewrite !inside_cons. cbn [sp_vpar]. split; [lia|split; [lia|intros ? ? []]].
  - intros k Hk. assert (k = 0) as -> by lia. exists B. reflexivity.
  - intros k Hk. assert (k = 0) as -> by lia. exists 0%R. reflexivity.
  - intros k Hk. assert (k = 0) as -> by lia. exists 0%R. reflexivity.
  - intros k Hk. assert (k = 0) as -> by lia. exists (sqrt 2). reflexivity.
  - exact Hv.
  - exact Hm.
  - intros k Hk. rewrite Vv by exact Hk. eexists. reflexivity.
  - intros k Hk. rewrite Vm by exact Hk. eexists. reflexivity.
  - intros k Hk. rewrite VZ by exact Hk. apply HS. apply I1. exact Hk.
  - intros k Hk. rewrite VA by exact Hk. apply HS. apply I1. exact Hk.
Qed.
