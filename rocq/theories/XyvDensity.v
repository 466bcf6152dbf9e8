(** The charge density of all ranks is the sum over the whole velocity grid. *)
From Coq Require Import Permutation Lia Lra.
From Verif Require Import MpiProofs MpiTransposeProofs OnionEval PspInt PpfBasis PpfVolume XyvSpec XyvRange XyvVlasov.
Open Scope R_scope.

Lemma copy_slice_holds src b dst F : NoDup (dims dst) -> dims dst = dims src ->
  (forall idx, in_range idx dst -> in_range idx src) -> buffer_holds src b F ->
  exists b', copy_slice src b dst = Ok b' /\ buffer_holds dst b' F.
Proof.
  intros Hn Hd Hsub HF. unfold copy_slice.
  apply (buffer_mapM dst _ (fun k => F (global_of dst k))); auto.
  - intros k Hk. apply HF. apply Hsub. apply global_in; auto.
  - intros idx Hi. apply (buffer_ext src b F); auto.
    + apply Hsub. apply global_in; auto. apply pos_lt; auto.
    + intros d Hdd. apply global_pos; auto. rewrite Hd; auto.
Qed.

(** ranges with two dimensions *)
Lemma global_two g a b k : a <> b -> (k < count g a * count g b)%nat ->
  global_of (sub_range [a; b] g) k a = front_of g a (k / count g b) /\
  global_of (sub_range [a; b] g) k b = front_of g b (k mod count g b).
Proof.
  intros Hab Hk. unfold global_of, sub_range, front_of, count. cbn [map select local_shape decode fst snd tag_eqb shape_size nprod].
  unfold shape_size. cbn [map snd nprod fold_right]. rewrite !Nat.eqb_refl.
  replace (Nat.eqb b a) with false by (symmetry; apply Nat.eqb_neq; auto).
  rewrite Nat.mul_1_r. rewrite Nat.div_1_r. auto.
Qed.

Lemma size_two g a b : range_size (sub_range [a; b] g) = (count g a * count g b)%nat.
Proof. unfold range_size, sub_range, count. cbn. lia. Qed.

Lemma sum_two g a b (h : (nat -> Z) -> R) : a <> b ->
  (forall i j, i a = j a -> i b = j b -> h i = h j) ->
  Rsum (range_size (sub_range [a; b] g)) (fun k => h (global_of (sub_range [a; b] g) k)) =
  Rsum (count g a) (fun i => Rsum (count g b) (fun j =>
    h (fun d => if Nat.eqb d a then front_of g a i else front_of g b j))).
Proof.
  intros Hab Hext. rewrite size_two, Rsum_blocks. apply Rsum_ext. intros i Hi. apply Rsum_ext. intros j Hj.
  assert (Hk : (i * count g b + j < count g a * count g b)%nat).
  { assert (S i * count g b <= count g a * count g b)%nat by (apply Nat.mul_le_mono_r; lia). lia. }
  destruct (global_two g a b _ Hab Hk) as [Ha Hb].
  destruct (div_mod_at (count g b) i j Hj) as [E1 E2]. rewrite E1 in Ha. rewrite E2 in Hb.
  apply Hext.
  - rewrite Ha, Nat.eqb_refl. reflexivity.
  - rewrite Hb. replace (Nat.eqb b a) with false by (symmetry; apply Nat.eqb_neq; auto). reflexivity.
Qed.

Section Density.
Variables (g : idx_range) (P : nat) (lx lv : nat -> idx_range).
Hypothesis HC : good_setup g P.
Hypothesis Rx : layout_ranges g X2DSplit P lx.
Hypothesis Rv : layout_ranges g V2DSplit P lv.
Variables (charges masses : list R) (ielec : Z).
Hypothesis HS : good_species g charges masses ielec.
Variable w : Z -> Z -> R.
Let W (idx : nat -> Z) : R := w (idx GVX) (idx GVY).

Lemma v_neq : GVX <> GVY. Proof. unfold GVX, GVY. lia. Qed.
Lemma x_neq : GX <> GY. Proof. unfold GX, GY. lia. Qed.

Lemma gv_nodup : NoDup (dims (sub_range [GVX; GVY] g)).
Proof. apply xy_nodup. repeat constructor; cbn; unfold GVX, GVY; intuition lia. Qed.

(** a global range (or a local one) with all species, whole spatial grid *)
Definition holder (lr : idx_range) : Prop :=
  NoDup (dims lr) /\ dims lr = [SP; GVX; GVY; GX; GY] /\
  (forall d, In d [SP; GX; GY] -> select d lr = select d g).

Lemma sub_of lr ds : (forall d, In d ds -> In d (dims lr)) -> forall idx, in_range idx lr -> in_range idx (sub_range ds lr).
Proof.
  intros Hd idx Hi d f n Hin. unfold sub_range in Hin. apply in_map_iff in Hin. destruct Hin as (e & E & He).
  injection E as <- E. apply Hi. rewrite <- E. apply in_select. auto.
Qed.

(** value of the sum over the species at one phase-space point *)
Definition S_at (F : (nat -> Z) -> R) (x y vx vy : Z) : R :=
  Rsum (count g SP) (fun s => nth (Z.to_nat (front_of g SP s)) charges 0 * F (point (front_of g SP s) x y vx vy)).

Lemma species_sum_ok lr f F ixy iv : holder lr -> buffer_holds lr f F ->
  in_range ixy (sub_range [GX; GY] lr) -> in_range iv (sub_range [GVX; GVY] lr) ->
  species_sum charges lr f ixy iv = Ok (S_at F (ixy GX) (ixy GY) (iv GVX) (iv GVY)).
Proof.
  intros (Hn & Hd & Hfull) HF Hxy Hv. unfold species_sum, S_at.
  rewrite (Hfull SP) by (cbn; auto).
  destruct (select SP g) as [fr n] eqn:Esp.
  assert (Hin : forall i, (i < n)%nat -> in_range (join (front_of g SP i) ixy iv) lr).
  { intros i Hi d f' n' Hdin. pose proof (select_in lr d f' n' Hn Hdin) as E.
    assert (Hdd : In d (dims lr)) by (apply (in_map fst) in Hdin; exact Hdin). rewrite Hd in Hdd.
    cbn in Hdd. unfold join.
    destruct Hdd as [<-|[<-|[<-|[<-|[<-|[]]]]]]; cbn [Nat.eqb orb SP GX GY GVX GVY].
    - rewrite (Hfull SP) in E by (cbn; auto). rewrite Esp in E. injection E as <- <-.
      unfold front_of. rewrite Esp. cbn [fst]. lia.
    - apply (Hv GVX f' n'). cbn. left. f_equal. exact E.
    - apply (Hv GVY f' n'). cbn. right; left. f_equal. exact E.
    - apply (Hxy GX f' n'). cbn. left. f_equal. exact E.
    - apply (Hxy GY f' n'). cbn. right; left. f_equal. exact E. }
  pose proof HS as (H1 & H2 & H3 & H4). unfold count in *. rewrite Esp in *. cbn [fst snd] in *.
  erewrite for_res_ext.
  2:{ intros i t Hi. instantiate (1 := fun i t => let* a := Ok (nth (Z.to_nat (front_of g SP i)) charges 0 *
          F (point (front_of g SP i) (ixy GX) (ixy GY) (iv GVX) (iv GVY))) in Ok (t + a)).
      cbv beta. replace (fr + Z.of_nat i)%Z with (front_of g SP i) by (unfold front_of; rewrite Esp; reflexivity).
      rewrite rd_real by (unfold front_of; rewrite Esp; cbn [fst]; lia). cbn [bind].
      destruct HF as [L HF]. rewrite (HF _ (Hin i Hi)). cbn [bind].
      rewrite (buffer_ext lr f F (join (front_of g SP i) ixy iv) (point (front_of g SP i) (ixy GX) (ixy GY) (iv GVX) (iv GVY))).
      - reflexivity.
      - split; auto.
      - apply Hin; auto.
      - rewrite Hd. intros d Hdd. cbn in Hdd. destruct Hdd as [<-|[<-|[<-|[<-|[<-|[]]]]]]; reflexivity. }
  rewrite (for_res_sum n (fun i => Ok (nth (Z.to_nat (front_of g SP i)) charges 0 *
          F (point (front_of g SP i) (ixy GX) (ixy GY) (iv GVX) (iv GVY))))
          (fun i => nth (Z.to_nat (front_of g SP i)) charges 0 *
          F (point (front_of g SP i) (ixy GX) (ixy GY) (iv GVX) (iv GVY)))) by auto.
  rewrite Rplus_0_l. reflexivity.
Qed.

(** the charge density of one rank *)
Lemma local_density_ok lr f F c : holder lr -> buffer_holds lr f F ->
  buffer_holds (sub_range [GVX; GVY] lr) c W ->
  exists rho, charge_density_xy charges lr (sub_range [GVX; GVY] lr) c f = Ok rho /\
    buffer_holds (sub_range [GX; GY] g) rho (fun idx =>
      Rsum (range_size (sub_range [GVX; GVY] lr)) (fun j =>
        let iv := global_of (sub_range [GVX; GVY] lr) j in W iv * S_at F (idx GX) (idx GY) (iv GVX) (iv GVY))
      + adiabatic_charge g charges).
Proof.
  intros Hh HF Hc. pose proof Hh as (Hn & Hd & Hfull). unfold charge_density_xy.
  assert (Exy : sub_range [GX; GY] lr = sub_range [GX; GY] g).
  { unfold sub_range. cbn [map]. rewrite !Hfull by (cbn; auto). reflexivity. }
  set (vr := sub_range [GVX; GVY] lr) in *.
  assert (Hnv : NoDup (dims vr)).
  { unfold vr, dims, sub_range. rewrite map_map. cbn. repeat constructor; cbn; unfold GVX, GVY; intuition lia. }
  rewrite Exy. set (xyr := sub_range [GX; GY] g) in *.
  assert (Hnx : NoDup (dims xyr)) by apply gxy_nodup.
  set (K := fun (idx : nat -> Z) => Rsum (range_size vr) (fun j =>
        W (global_of vr j) * S_at F (idx GX) (idx GY) (global_of vr j GVX) (global_of vr j GVY))).
  destruct (buffer_mapM xyr (fun k => for_res (range_size vr) (fun j sum =>
        let iv := global_of vr j in
        let* c := field_at vr c iv in
        let* s := species_sum charges lr f (global_of xyr k) iv in
        Ok (sum + c * s)) 0) (fun k => K (global_of xyr k)) K) as (rho & E & Hrho); auto.
  - intros k Hk.
    erewrite for_res_ext.
    2:{ intros j t Hj. instantiate (1 := fun j t => let* a := Ok (W (global_of vr j) *
            S_at F (global_of xyr k GX) (global_of xyr k GY) (global_of vr j GVX) (global_of vr j GVY)) in Ok (t + a)).
        cbv beta zeta. pose proof (global_in vr j Hnv Hj) as Hjv. destruct Hc as [Lc Hc]. rewrite (Hc _ Hjv). cbn [bind].
        rewrite (species_sum_ok lr f F); auto.
        rewrite Exy. apply global_in; auto. }
    rewrite (for_res_sum (range_size vr) _ (fun j => W (global_of vr j) *
            S_at F (global_of xyr k GX) (global_of xyr k GY) (global_of vr j GVX) (global_of vr j GVY))) by auto.
    rewrite Rplus_0_l. reflexivity.
  - intros idx Hi. unfold K. apply Rsum_ext. intros j Hj.
    rewrite !(global_pos xyr idx) by (auto; cbn; auto). reflexivity.
  - cbv zeta in E. cbv zeta. rewrite E. cbn [bind]. rewrite (Hfull SP) by (cbn; auto). fold (count g SP).
    pose proof HS as (H1 & H2 & H3 & H4).
    unfold adiabatic_charge.
    destruct (fst (select SP g) + Z.of_nat (count g SP) - 1 =? Z.of_nat (length charges) - 1)%Z eqn:B; cbn [negb].
    + replace (fst (select SP g) + Z.of_nat (count g SP) =? Z.of_nat (length charges))%Z with true by lia.
      exists rho. split; auto. destruct Hrho as [L HH]. split; auto. intros idx Hi. rewrite HH by auto. f_equal. unfold K. lra.
    + replace (fst (select SP g) + Z.of_nat (count g SP) =? Z.of_nat (length charges))%Z with false by lia.
      rewrite rd_real by lia. cbn [bind]. eexists. split; [reflexivity|].
      destruct Hrho as [L HH]. split; [rewrite map_length; auto|].
      intros idx Hi. specialize (HH idx Hi). rewrite field_at_pos in *. apply rd_nth_error in HH.
      apply nth_error_rd. erewrite map_nth_error by exact HH. do 2 f_equal. f_equal. lia.
Qed.

Lemma lv_holder r : (r < P)%nat -> holder (lv r).
Proof.
  intros Hr. split; [|split].
  - apply (lv_nodup g P lv HC Rv); auto.
  - apply (lv_dims g P lv HC Rv); auto.
  - intros d Hd. apply (lv_full g P lv HC Rv); auto.
Qed.

(** the velocity ranges of the ranks partition the velocity grid *)
Lemma velocity_partition : partitions P (fun r => sub_range [GVX; GVY] (lv r)) (sub_range [GVX; GVY] g).
Proof.
  destruct (locL_partition g P HC V2DSplit (or_intror eq_refl)) as [Hex Hin].
  assert (Hpos : forall d, In d [SP; GX; GY] -> (0 < count g d)%nat).
  { intros d Hd. destruct HC as (_ & _ & _ & _ & _ & _ & _ & H). apply H. cbn in *; tauto. }
  (* completion of a velocity index by the first spatial point of the first species *)
  set (full := fun (idx : nat -> Z) d => if in_tags d [GVX; GVY] then idx d else fst (select d g)).
  assert (Hfull : forall r idx, (r < P)%nat -> in_range idx (sub_range [GVX; GVY] (lv r)) <-> in_range (full idx) (lv r)).
  { intros r idx Hr. pose proof (lv_holder r Hr) as (Hn & Hd & Hf). split.
    - intros Hi d f n Hdin. pose proof (select_in (lv r) d f n Hn Hdin) as E.
      assert (Hdd : In d (dims (lv r))) by (apply (in_map fst) in Hdin; exact Hdin). rewrite Hd in Hdd. cbn in Hdd.
      unfold full. destruct Hdd as [<-|[<-|[<-|[<-|[<-|[]]]]]]; cbn [in_tags existsb Nat.eqb SP GX GY GVX GVY orb].
      + rewrite (Hf SP) in E by (cbn; auto). specialize (Hpos SP ltac:(cbn; auto)). unfold count in Hpos.
        change 0%nat with SP. rewrite E in *. cbn in *. lia.
      + apply (Hi GVX f n). cbn. left. f_equal. exact E.
      + apply (Hi GVY f n). cbn. right; left. f_equal. exact E.
      + rewrite (Hf GX) in E by (cbn; auto). specialize (Hpos GX ltac:(cbn; auto)). unfold count in Hpos.
        change 1%nat with GX. rewrite E in *. cbn in *. lia.
      + rewrite (Hf GY) in E by (cbn; auto). specialize (Hpos GY ltac:(cbn; auto)). unfold count in Hpos.
        change 2%nat with GY. rewrite E in *. cbn in *. lia.
    - intros Hi. assert (Hi2 : in_range (full idx) (sub_range [GVX; GVY] (lv r))).
      { apply sub_of; auto. rewrite Hd. cbn; tauto. }
      apply (in_range_ext _ (full idx) idx); auto. intros d Hdd. unfold full.
      unfold dims, sub_range in Hdd. cbn in Hdd. destruct Hdd as [<-|[<-|[]]]; reflexivity. }
  split.
  - intros idx Hi. destruct (Hex (full idx)) as (r & Hr & Hir & Hu).
    { apply in_sub. intros d Hd. unfold full.
      destruct (in_tags d [GVX; GVY]) eqn:B.
      - apply in_tags_iff in B. apply (proj1 (in_sub g _ idx) Hi). auto.
      - apply in_tags_false in B. assert (In d [SP; GX; GY]) by (cbn in *; tauto). specialize (Hpos d H). lia. }
    rewrite <- (lv_locL g P lv HC Rv r Hr) in Hir.
    exists r. split; auto. split; [apply Hfull; auto|].
    intros r' Hr' Hir'. apply Hu; auto. rewrite <- (lv_locL g P lv HC Rv r' Hr'). apply Hfull; auto.
  - intros r idx Hr Hi. apply Hfull in Hi; auto. rewrite (lv_locL g P lv HC Rv r Hr) in Hi. apply Hin in Hi; auto.
    apply in_sub. intros d Hd.
    assert (Hdo : In d (l_order V2DSplit)) by (cbn in *; tauto).
    pose proof (proj1 (in_sub g _ (full idx)) Hi d Hdo) as Hb. unfold full in Hb.
    replace (in_tags d [GVX; GVY]) with true in Hb; auto. symmetry. apply in_tags_iff. auto.
Qed.

Lemma velocity_sum F x y :
  Rsum P (fun r => Rsum (range_size (sub_range [GVX; GVY] (lv r))) (fun j =>
     let iv := global_of (sub_range [GVX; GVY] (lv r)) j in W iv * S_at F x y (iv GVX) (iv GVY))) =
  kinetic_density g charges w F x y.
Proof.
  set (h := fun iv : nat -> Z => W iv * S_at F x y (iv GVX) (iv GVY)).
  assert (Hh : forall i j : nat -> Z, i GVX = j GVX -> i GVY = j GVY -> h i = h j).
  { intros i j E1 E2. unfold h, W. rewrite E1, E2. reflexivity. }
  change (Rsum P (fun r => Rsum (range_size (sub_range [GVX; GVY] (lv r))) (fun j => h (global_of (sub_range [GVX; GVY] (lv r)) j))) =
    kinetic_density g charges w F x y).
  rewrite (partition_sum P (fun r => sub_range [GVX; GVY] (lv r)) (sub_range [GVX; GVY] g) h gv_nodup velocity_partition).
  - rewrite sum_two by (auto; apply v_neq). unfold kinetic_density.
    apply Rsum_ext. intros i Hi. apply Rsum_ext. intros j Hj. reflexivity.
  - intros r Hr. reflexivity.
  - intros i j Hi Hij. apply Hh; apply Hij; cbn; auto.
Qed.

(** the buffer of the coefficients of one rank *)
Lemma local_coeffs_ok quad r : buffer_holds (sub_range [GVX; GVY] g) quad W -> (r < P)%nat ->
  exists c, local_quadrature_coeffs g lv quad r = Ok c /\ buffer_holds (sub_range [GVX; GVY] (lv r)) c W.
Proof.
  intros Hq Hr. unfold local_quadrature_coeffs. apply copy_slice_holds; auto.
  - apply gv_nodup.
  - intros idx. apply (proj2 velocity_partition r idx Hr).
Qed.

Lemma allreduce_ok (rhos : list (list R)) n (v : nat -> nat -> R) : (0 < P)%nat -> length rhos = P ->
  (forall r, (r < P)%nat -> exists b, nth_error rhos r = Some b /\ length b = n /\
     forall k, (k < n)%nat -> nth k b 0 = v r k) ->
  mpi_allreduce_sum P rhos = Ok (repeat (map (fun k => Rsum P (fun r => v r k)) (seq 0 n)) P).
Proof.
  intros HP HL Hb. unfold mpi_allreduce_sum.
  assert (Hn : length (nth 0 rhos []) = n).
  { destruct (Hb 0%nat HP) as (b & E & L & _). rewrite (nth_error_nth _ _ _ E). exact L. }
  rewrite Hn, HL, Nat.eqb_refl. cbn [andb].
  replace (forallb (fun b => Nat.eqb (length b) n) rhos) with true.
  2:{ symmetry. apply forallb_forall. intros b Hbin. apply In_nth_error in Hbin. destruct Hbin as (r & Er).
      assert (Hr : (r < P)%nat) by (rewrite <- HL; apply nth_error_Some; congruence).
      destruct (Hb r Hr) as (b' & E & L & _). rewrite Er in E. injection E as <-. apply Nat.eqb_eq. exact L. }
  do 2 f_equal. apply map_ext_in. intros k Hk. apply in_seq in Hk.
  assert (HF : forall rs s0 s, (forall r b, nth_error rs r = Some b -> nth k b 0 = v (s + r)%nat k) ->
     fold_left (fun a b => a + nth k b 0) rs s0 = s0 + Rsum (length rs) (fun r => v (s + r)%nat k)).
  { induction rs as [|b rs IH]; intros s0 s H; cbn [fold_left length].
    - cbn. lra.
    - rewrite (IH _ (S s)).
      + rewrite Rsum_first. rewrite (H 0%nat b eq_refl). rewrite Rplus_assoc. do 2 f_equal.
        apply Rsum_ext. intros r Hr. f_equal. lia.
      + intros r b' Hr. rewrite (H (S r) b' Hr). f_equal. lia. }
  rewrite (HF rhos 0 0%nat).
  - rewrite HL, Rplus_0_l. reflexivity.
  - intros r b Er. assert (Hr : (r < P)%nat) by (rewrite <- HL; apply nth_error_Some; congruence).
    destruct (Hb r Hr) as (b' & E & L & Hv). rewrite Er in E. injection E as <-. apply Hv. lia.
Qed.

Theorem mpi_density quad f F : buffer_holds (sub_range [GVX; GVY] g) quad W -> holds_field P lv f F ->
  exists rho, mpi_charge_density g P lv charges quad f = Ok (repeat rho P) /\
    buffer_holds (sub_range [GX; GY] g) rho (fun idx =>
      kinetic_density g charges w F (idx GX) (idx GY) + INR P * adiabatic_charge g charges).
Proof.
  intros Hq HF. unfold mpi_charge_density.
  assert (HP : (0 < P)%nat) by apply HC.
  set (Kr := fun r (idx : nat -> Z) => Rsum (range_size (sub_range [GVX; GVY] (lv r))) (fun j =>
        let iv := global_of (sub_range [GVX; GVY] (lv r)) j in W iv * S_at F (idx GX) (idx GY) (iv GVX) (iv GVY))
      + adiabatic_charge g charges).
  set (xyr := sub_range [GX; GY] g).
  assert (Hnx : NoDup (dims xyr)) by apply gxy_nodup.
  destruct HF as [Lf HF].
  destruct (mapM_seq_ex (fun r => let* x := rd f (Z.of_nat r) in
        let* c := local_quadrature_coeffs g lv quad r in
        charge_density_xy charges (lv r) (sub_range [GVX; GVY] (lv r)) c x)
      (fun r b => buffer_holds xyr b (Kr r)) P 0) as (rhos & E & L & Hr).
  { intros r Hr. destruct (HF r) as (b & Eb & Lb & Hb); [lia|].
    rewrite (nth_error_rd _ _ _ Eb). cbn [bind].
    destruct (local_coeffs_ok quad r Hq) as (c & Ec & Hc); [lia|]. rewrite Ec. cbn [bind].
    apply local_density_ok; auto. apply lv_holder; lia. split; auto. }
  unfold every_rank. rewrite E. cbn [bind].
  rewrite (allreduce_ok rhos (range_size xyr) (fun r k => Kr r (global_of xyr k))); auto.
  2:{ intros r Hrr. destruct (Hr r Hrr) as (b & Eb & Lb & Hb). exists b. split; auto. split; auto.
      intros k Hk. pose proof (Hb (global_of xyr k) (global_in xyr k Hnx Hk)) as HH.
      rewrite field_at_pos, pos_global in HH by auto. apply rd_nth_error in HH. apply nth_error_nth. exact HH. }
  eexists. split; [reflexivity|].
  split; [rewrite map_length, seq_length; reflexivity|].
  intros idx Hi. rewrite field_at_pos. pose proof (pos_lt xyr idx Hnx Hi) as Hp. apply nth_error_rd.
  erewrite map_nth_error.
  2:{ rewrite nth_error_nth' with (d := 0%nat) by (rewrite seq_length; auto). rewrite seq_nth; auto. }
  f_equal. rewrite <- (velocity_sum F (idx GX) (idx GY)). unfold Kr. rewrite Rsum_plus. rewrite Rsum_const.
  rewrite Nat.add_0_l. rewrite !(global_pos xyr idx) by (auto; cbn; auto). f_equal; try lra.
Qed.
End Density.
