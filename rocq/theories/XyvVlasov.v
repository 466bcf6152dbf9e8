(** The split Vlasov solvers move the distribution function as the specification says, whatever the ranks. *)
From Coq Require Import Permutation Lia Lra.
From Verif Require Import MpiProofs MpiTransposeProofs XyvSpec XyvRange.
Open Scope R_scope.

Lemma advect_holds {C} g (itp : nat -> interpolator C) coordinate d disp D lr f F :
  NoDup (dims lr) -> In d (dims lr) -> select d lr = select d g -> buffer_holds lr f F ->
  (forall idx, in_range idx lr -> disp idx = Ok (D idx)) ->
  (forall i j, in_range i lr -> (forall e, In e (dims lr) -> i e = j e) -> D i = D j) ->
  exists f', advect g itp coordinate d disp lr f = Ok f' /\
             buffer_holds lr f' (transport g itp coordinate d D F).
Proof.
  intros Hn Hd Hs HF HD HE. unfold advect. rewrite Hs, Z.eqb_refl, Nat.eqb_refl. cbn [check andb bind].
  assert (Hin : forall idx k, in_range idx lr -> (k < count g d)%nat -> in_range (zupd idx d (front_of g d k)) lr).
  { intros idx k Hi Hk e fe ne Hin. unfold zupd. destruct (Nat.eqb_spec e d) as [->|He].
    - pose proof (select_in lr d fe ne Hn Hin) as E. rewrite Hs in E. unfold front_of, count in *.
      rewrite E in *. cbn [fst snd] in *. lia.
    - apply (Hi e fe ne Hin). }
  apply (buffer_mapM lr _ (fun k => transport g itp coordinate d D F (global_of lr k))); auto.
  - intros k Hk. pose proof (global_in lr k Hn Hk) as Hi. cbv zeta.
    rewrite (HD _ Hi). cbn [bind]. unfold read_line. rewrite Hs.
    destruct (select d g) as [fr n] eqn:Eg.
    rewrite (mapM_seq_ok _ (fun j => F (zupd (global_of lr k) d (front_of g d j)))).
    2:{ intros j Hj. replace (fr + Z.of_nat j)%Z with (front_of g d j) by (unfold front_of; rewrite Eg; reflexivity).
        apply HF. apply Hin; auto. unfold count; rewrite Eg; cbn; lia. }
    cbn [bind]. unfold transport, count. rewrite Eg. cbn [snd]. reflexivity.
  - intros idx Hi. unfold transport.
    assert (HA : forall e, In e (dims lr) -> global_of lr (pos lr idx) e = idx e)
      by (intros e He; apply global_pos; auto).
    assert (Hg : in_range (global_of lr (pos lr idx)) lr) by (apply global_in; [auto|apply pos_lt; auto]).
    f_equal.
    + f_equal. apply map_ext_in. intros k Hk. apply in_seq in Hk. apply (buffer_ext lr f F); auto.
      * apply Hin; auto; lia.
      * intros e He. cbv beta. destruct (Nat.eqb e d); auto.
    + rewrite HA by auto. rewrite (HE _ idx Hg HA). reflexivity.
Qed.

Lemma xy_nodup g ds : NoDup ds -> NoDup (dims (sub_range ds g)).
Proof. intros H. unfold dims, sub_range. rewrite map_map. cbn [fst]. rewrite map_id. exact H. Qed.
Lemma gxy_nodup g : NoDup (dims (sub_range [GX; GY] g)).
Proof. apply xy_nodup. repeat constructor; cbn; unfold GX, GY; intuition lia. Qed.

Section Ranges.
Variables (g : idx_range) (P : nat) (lx lv : nat -> idx_range).
Hypothesis HC : good_setup g P.
Hypothesis Rx : layout_ranges g X2DSplit P lx.
Hypothesis Rv : layout_ranges g V2DSplit P lv.

Lemma lx_locL r : (r < P)%nat -> lx r = locL g X2DSplit P r.
Proof. destruct HC as (H1 & H2 & Hp & Hd & HP & D1 & D2 & Hpos). apply layout_ranges_locL; auto. Qed.
Lemma lv_locL r : (r < P)%nat -> lv r = locL g V2DSplit P r.
Proof. destruct HC as (H1 & H2 & Hp & Hd & HP & D1 & D2 & Hpos). apply layout_ranges_locL; auto. Qed.

Lemma lx_dims r : (r < P)%nat -> dims (lx r) = [SP; GX; GY; GVX; GVY].
Proof. intros Hr. rewrite lx_locL by auto. apply locL_dims. Qed.
Lemma lv_dims r : (r < P)%nat -> dims (lv r) = [SP; GVX; GVY; GX; GY].
Proof. intros Hr. rewrite lv_locL by auto. apply locL_dims. Qed.
Lemma lx_nodup r : (r < P)%nat -> NoDup (dims (lx r)).
Proof. intros Hr. rewrite lx_dims by auto. apply HC. Qed.
Lemma lv_nodup r : (r < P)%nat -> NoDup (dims (lv r)).
Proof. intros Hr. rewrite lv_dims by auto. apply HC. Qed.

Lemma locL_full L r d : In d (l_order L) -> ~ In d (l_distr L) -> select d (locL g L P r) = select d g.
Proof.
  intros Hi Hn. rewrite select_locL by auto. unfold loc. apply in_tags_false in Hn. rewrite Hn. reflexivity.
Qed.

Lemma lx_full r d : (r < P)%nat -> In d [SP; GVX; GVY] -> select d (lx r) = select d g.
Proof.
  intros Hr Hd. rewrite lx_locL by auto. apply locL_full; cbn in *; unfold SP, GX, GY, GVX, GVY in *; intuition lia.
Qed.
Lemma lv_full r d : (r < P)%nat -> In d [SP; GX; GY] -> select d (lv r) = select d g.
Proof.
  intros Hr Hd. rewrite lv_locL by auto. apply locL_full; cbn in *; unfold SP, GX, GY, GVX, GVY in *; intuition lia.
Qed.

Lemma distr_ok L : L = X2DSplit \/ L = V2DSplit -> good_layout g L /\ Nat.divide P (distributed_size (l_distr L) g) /\ (0 < P)%nat.
Proof.
  destruct HC as (H1 & H2 & Hp & Hd & HP & D1 & D2 & Hpos). intros [->| ->]; auto.
Qed.

Lemma locL_partition L : L = X2DSplit \/ L = V2DSplit -> partitions P (locL g L P) (sub_range (l_order L) g).
Proof.
  intros HL. destruct (distr_ok L HL) as (Hg & Hdiv & HP). unfold locL. fold (gL g L).
  apply local_partition; auto.
  - apply (gL_nodup g L Hg).
  - pose proof (distr_size_gL g L Hg) as E. rewrite dsizes_perm.
    + fold (distributed_size (l_distr L) (gL g L)). rewrite E. exact Hdiv.
    + apply (gL_nodup g L Hg).
    + apply (distr_nodup g L Hg).
    + rewrite dims_gL. apply (distr_incl g L Hg).
Qed.

(** an index of a local range is an index of the global one *)
Lemma in_sub ds idx : in_range idx (sub_range ds g) <->
  forall d, In d ds -> (fst (select d g) <= idx d < fst (select d g) + Z.of_nat (count g d))%Z.
Proof.
  unfold in_range, sub_range, count. split.
  - intros H d Hd. apply (H d (fst (select d g)) (snd (select d g))). apply in_map_iff. exists d.
    rewrite <- surjective_pairing. auto.
  - intros H d f n Hi. apply in_map_iff in Hi. destruct Hi as (e & E & He). injection E as <- E.
    specialize (H e He). rewrite E in H. exact H.
Qed.

Lemma in_global L r idx : L = X2DSplit \/ L = V2DSplit -> (r < P)%nat -> in_range idx (locL g L P r) ->
  forall d, In d [SP; GX; GY; GVX; GVY] ->
  (fst (select d g) <= idx d < fst (select d g) + Z.of_nat (count g d))%Z.
Proof.
  intros HL Hr Hi d Hd. destruct (locL_partition L HL) as [_ H]. specialize (H r idx Hr Hi).
  apply (proj1 (in_sub (l_order L) idx) H). destruct HL as [->| ->]; cbn in *; tauto.
Qed.
Lemma in_global_x r idx : (r < P)%nat -> in_range idx (lx r) -> forall d, In d [SP; GX; GY; GVX; GVY] ->
  (fst (select d g) <= idx d < fst (select d g) + Z.of_nat (count g d))%Z.
Proof. intros Hr. rewrite lx_locL by auto. apply in_global; auto. Qed.
Lemma in_global_v r idx : (r < P)%nat -> in_range idx (lv r) -> forall d, In d [SP; GX; GY; GVX; GVY] ->
  (fst (select d g) <= idx d < fst (select d g) + Z.of_nat (count g d))%Z.
Proof. intros Hr. rewrite lv_locL by auto. apply in_global; auto. Qed.

(** the spatial part of the V2DSplit data of a rank is the whole spatial grid *)
Lemma lv_xy r : (r < P)%nat -> sub_range [GX; GY] (lv r) = sub_range [GX; GY] g.
Proof.
  intros Hr. unfold sub_range. cbn [map]. rewrite !lv_full by (auto; cbn; auto). reflexivity.
Qed.

(** ** Displacements *)
Section Displacements.
Variables (charges masses : list R) (ielec : Z) (coordinate : nat -> Z -> R).
Hypothesis HS : good_species g charges masses ielec.

Lemma rd_real (l : list R) i : (0 <= i < Z.of_nat (length l))%Z -> rd l i = Ok (nth (Z.to_nat i) l 0).
Proof.
  intros H. rewrite <- (Z2Nat.id i) at 1 by lia. apply nth_error_rd. apply nth_error_nth'. lia.
Qed.

Lemma spatial_displacement_ok dv dt idx : (fst (select SP g) <= idx SP < fst (select SP g) + Z.of_nat (count g SP))%Z ->
  spatial_displacement masses ielec coordinate dv dt idx =
  Ok (sqrt (mass_of masses ielec / mass_of masses (idx SP)) * dt * coordinate dv (idx dv)).
Proof.
  intros Hi. destruct HS as (H1 & H2 & H3 & H4). unfold spatial_displacement.
  rewrite !rd_real by lia. reflexivity.
Qed.

Lemma velocity_displacement_ok efield E dt idx : buffer_holds (sub_range [GX; GY] g) efield E ->
  (forall d, In d [SP; GX; GY; GVX; GVY] ->
     (fst (select d g) <= idx d < fst (select d g) + Z.of_nat (count g d))%Z) ->
  velocity_displacement charges masses ielec (sub_range [GX; GY] g) efield dt idx =
  Ok (charge_of charges (idx SP) * sqrt (mass_of masses ielec / mass_of masses (idx SP)) * dt * E idx).
Proof.
  intros [_ HE] Hi. pose proof (Hi SP ltac:(cbn; tauto)) as Hsp.
  destruct HS as (H1 & H2 & H3 & H4). unfold velocity_displacement.
  rewrite !rd_real by lia. cbn [bind]. rewrite HE; [reflexivity|].
  apply in_sub. intros d Hd. apply Hi. cbn in *. tauto.
Qed.
End Displacements.
End Ranges.

Section Solver.
Context {C : Type}.
Variables (g : idx_range) (P : nat) (lx lv : nat -> idx_range).
Hypothesis HC : good_setup g P.
Hypothesis Rx : layout_ranges g X2DSplit P lx.
Hypothesis Rv : layout_ranges g V2DSplit P lv.
Variables (charges masses : list R) (ielec : Z).
Hypothesis HS : good_species g charges masses ielec.
Variables (itp : nat -> interpolator C) (coordinate : nat -> Z -> R).


(** all five directions, within the global range *)
Definition five (lr : idx_range) : Prop :=
  NoDup (dims lr) /\ (forall e, In e [SP; GX; GY; GVX; GVY] <-> In e (dims lr)) /\
  forall idx, in_range idx lr -> forall d, In d [SP; GX; GY; GVX; GVY] ->
     (fst (select d g) <= idx d < fst (select d g) + Z.of_nat (count g d))%Z.

Lemma five_local r lr : (r < P)%nat -> lr = lx r \/ lr = lv r -> five lr.
Proof.
  intros Hr Hlr. split; [|split].
  - destruct Hlr as [->| ->]; [apply (lx_nodup g P lx HC Rx)|apply (lv_nodup g P lv HC Rv)]; auto.
  - destruct Hlr as [->| ->]; [rewrite (lx_dims g P lx HC Rx r Hr)|rewrite (lv_dims g P lv HC Rv r Hr)]; cbn; tauto.
  - intros idx Hi. destruct Hlr as [->| ->];
      [apply (in_global_x g P lx HC Rx r idx Hr Hi)|apply (in_global_v g P lv HC Rv r idx Hr Hi)]; auto.
Qed.

Lemma stream_gen lr d dv dt f F : five lr -> In d [SP; GX; GY; GVX; GVY] ->
  In dv [SP; GX; GY; GVX; GVY] -> select d lr = select d g -> buffer_holds lr f F ->
  exists f', advect g itp coordinate d (spatial_displacement masses ielec coordinate dv dt) lr f = Ok f' /\
    buffer_holds lr f' (stream g itp coordinate masses ielec d dv dt F).
Proof.
  intros (Hn & Hdims & Hg) Hd Hdv Hs HF.
  unfold stream. apply advect_holds; auto.
  - apply Hdims; auto.
  - intros idx Hi. eapply spatial_displacement_ok; eauto. apply Hg; auto. cbn; auto.
  - intros i j Hi Hij. rewrite (Hij SP), (Hij dv); [reflexivity| |]; apply Hdims; auto. cbn; auto.
Qed.

Lemma accelerate_gen lr d dt e E f F : five lr -> In d [SP; GX; GY; GVX; GVY] ->
  select d lr = select d g -> buffer_holds (sub_range [GX; GY] g) e E -> buffer_holds lr f F ->
  exists f', advect g itp coordinate d (velocity_displacement charges masses ielec (sub_range [GX; GY] g) e dt) lr f = Ok f' /\
    buffer_holds lr f' (accelerate g itp coordinate charges masses ielec d E dt F).
Proof.
  intros (Hn & Hdims & Hg) Hd Hs HE HF.
  unfold accelerate. apply advect_holds; auto.
  - apply Hdims; auto.
  - intros idx Hi. eapply velocity_displacement_ok; eauto.
  - intros i j Hi Hij. rewrite (Hij SP) by (apply Hdims; cbn; auto).
    rewrite (buffer_ext _ e E i j HE); [reflexivity| |].
    + apply in_sub. intros x Hx. apply Hg; auto. cbn in *; tauto.
    + intros x Hx. apply Hij. apply Hdims. cbn in *. tauto.
Qed.

Lemma stream_holds r lr d dv dt f F : (r < P)%nat -> lr = lx r \/ lr = lv r -> In d [SP; GX; GY; GVX; GVY] ->
  In dv [SP; GX; GY; GVX; GVY] -> select d lr = select d g -> buffer_holds lr f F ->
  exists f', advect g itp coordinate d (spatial_displacement masses ielec coordinate dv dt) lr f = Ok f' /\
    buffer_holds lr f' (stream g itp coordinate masses ielec d dv dt F).
Proof. intros Hr Hlr. apply stream_gen. eapply five_local; eauto. Qed.

Lemma accelerate_holds r lr d dt e E f F : (r < P)%nat -> lr = lx r \/ lr = lv r -> In d [SP; GX; GY; GVX; GVY] ->
  select d lr = select d g -> buffer_holds (sub_range [GX; GY] g) e E -> buffer_holds lr f F ->
  exists f', advect g itp coordinate d (velocity_displacement charges masses ielec (sub_range [GX; GY] g) e dt) lr f = Ok f' /\
    buffer_holds lr f' (accelerate g itp coordinate charges masses ielec d E dt F).
Proof. intros Hr Hlr. apply accelerate_gen. eapply five_local; eauto. Qed.

(** a copy of a field on its own range is the field *)
Lemma copy_same lr b F : NoDup (dims lr) -> buffer_holds lr b F -> copy_slice lr b lr = Ok b.
Proof.
  intros Hn HF. unfold copy_slice.
  destruct (buffer_mapM lr (fun k => field_at lr b (global_of lr k)) (fun k => F (global_of lr k)) F) as (b' & E & H'); auto.
  - intros k Hk. apply HF. apply global_in; auto.
  - intros idx Hi. apply (buffer_ext lr b F); auto.
    + apply global_in; auto. apply pos_lt; auto.
    + intros d Hd. apply global_pos; auto.
  - rewrite E. f_equal. destruct H' as [L' H'], HF as [L HF].
    apply (field_determined lr b' b F); auto.
Qed.

(** one rank with the whole range *)
Theorem serial_vlasov ex ey Ex Ey dt f F :
  let lr := sub_range (l_order V2DSplit) g in let er := sub_range [GX; GY] g in
  buffer_holds er ex Ex -> buffer_holds er ey Ey -> buffer_holds lr f F ->
  exists f', split_vlasov_xy g charges masses ielec itp coordinate lr er (ex, ey) dt f = Ok f' /\
    buffer_holds lr f' (vlasov_step g itp coordinate charges masses ielec Ex Ey dt F).
Proof.
  intros lr er HX HY HF. unfold split_vlasov_xy.
  assert (H5 : five lr).
  { split; [|split].
    - apply xy_nodup. apply HC.
    - intros e. unfold lr, dims, sub_range. cbn. tauto.
    - intros idx Hi d Hd. apply (proj1 (in_sub g _ idx) Hi). cbn in *. tauto. }
  assert (Hsel : forall d, In d [SP; GX; GY; GVX; GVY] -> select d lr = select d g).
  { intros d Hd. unfold lr, sub_range. apply select_map. cbn in *. tauto. }
  cbn [fst snd]. unfold advec_x, advec_y, advec_vx, advec_vy.
  destruct (stream_gen lr GX GVX (dt / 2) f F) as (f1 & E1 & H1); auto; try (cbn; tauto).
  rewrite E1. cbn [bind].
  destruct (stream_gen lr GY GVY (dt / 2) f1 _ H5 ltac:(cbn; tauto) ltac:(cbn; tauto) ltac:(apply Hsel; cbn; tauto) H1) as (f2 & E2 & H2).
  rewrite E2. cbn [bind].
  destruct (accelerate_gen lr GVX (dt / 2) ex Ex f2 _ H5 ltac:(cbn; tauto) ltac:(apply Hsel; cbn; tauto) HX H2) as (f3 & E3 & H3).
  unfold er. rewrite E3. cbn [bind].
  destruct (accelerate_gen lr GVY dt ey Ey f3 _ H5 ltac:(cbn; tauto) ltac:(apply Hsel; cbn; tauto) HY H3) as (f4 & E4 & H4).
  rewrite E4. cbn [bind].
  destruct (accelerate_gen lr GVX (dt / 2) ex Ex f4 _ H5 ltac:(cbn; tauto) ltac:(apply Hsel; cbn; tauto) HX H4) as (f5 & E5 & H6).
  rewrite E5. cbn [bind].
  destruct (stream_gen lr GY GVY (dt / 2) f5 _ H5 ltac:(cbn; tauto) ltac:(cbn; tauto) ltac:(apply Hsel; cbn; tauto) H6) as (f6 & E7 & H7).
  rewrite E7. cbn [bind].
  exact (stream_gen lr GX GVX (dt / 2) f6 _ H5 ltac:(cbn; tauto) ltac:(cbn; tauto) ltac:(apply Hsel; cbn; tauto) H7).
Qed.

Theorem mpi_vlasov uninit efield Ex Ey dt f F :
  all_ranks_hold P g (map fst efield) Ex -> all_ranks_hold P g (map snd efield) Ey ->
  holds_field P lv f F ->
  exists f', mpi_split_vlasov g P lx lv charges masses ielec itp coordinate uninit efield dt f = Ok f' /\
    holds_field P lv f' (vlasov_step g itp coordinate charges masses ielec Ex Ey dt F).
Proof.
  intros [LX HX] [LY HY] HF. rewrite map_length in LX, LY. unfold mpi_split_vlasov.
  assert (HE : forall r, (r < P)%nat -> exists ex ey, nth_error efield r = Some (ex, ey) /\
     buffer_holds (sub_range [GX; GY] g) ex Ex /\ buffer_holds (sub_range [GX; GY] g) ey Ey).
  { intros r Hr. destruct (nth_error efield r) as [[ex ey]|] eqn:E.
    - exists ex, ey. split; auto. apply nth_error_In in E. split.
      + apply HX. apply (in_map fst) in E. exact E.
      + apply HY. apply (in_map snd) in E. exact E.
    - apply nth_error_None in E. lia. }
  assert (HL : every_rank P (fun r e =>
        let* ex := copy_slice (sub_range [GX; GY] (lv r)) (fst e) (sub_range [GX; GY] (lv r)) in
        let* ey := copy_slice (sub_range [GX; GY] (lv r)) (snd e) (sub_range [GX; GY] (lv r)) in
        Ok (ex, ey)) efield = Ok efield).
  { unfold every_rank. rewrite (mapM_seq_ok _ (fun r => nth r efield ([], []))).
    - f_equal. subst P. apply nth_error_ext. intros k. destruct (Nat.lt_ge_cases k (length efield)) as [Hk|Hk].
      + erewrite map_nth_error; [symmetry; apply nth_error_nth'; auto|].
        rewrite nth_error_nth' with (d := 0%nat) by (rewrite seq_length; auto). rewrite seq_nth; auto.
      + rewrite (proj2 (nth_error_None efield k)) by auto. apply nth_error_None.
        rewrite map_length, seq_length. auto.
    - intros r Hr. destruct (HE r) as (ex & ey & E & H1 & H2); [lia|].
      rewrite (nth_error_rd _ _ _ E). cbn [bind fst snd].
      rewrite (lv_xy g P lv HC Rv r) by lia.
      rewrite (copy_same _ ex Ex) by (auto; apply gxy_nodup).
      rewrite (copy_same _ ey Ey) by (auto; apply gxy_nodup). cbn [bind].
      rewrite (nth_error_nth _ _ _ E). reflexivity. }
  rewrite HL. cbn [bind]. clear HL.
  set (F1 := stream g itp coordinate masses ielec GX GVX (dt / 2) F).
  destruct (every_rank_holds P lv lv f F F1 (fun r => advec_x g masses ielec itp coordinate (dt / 2) (lv r)))
    as (f1 & E1 & H1); auto.
  { intros r b Hr Hb. unfold advec_x. eapply stream_holds; eauto; try (cbn; tauto). apply (lv_full g P lv HC Rv); cbn; auto. }
  rewrite E1. cbn [bind].
  set (F2 := stream g itp coordinate masses ielec GY GVY (dt / 2) F1).
  destruct (every_rank_holds P lv lv f1 F1 F2 (fun r => advec_y g masses ielec itp coordinate (dt / 2) (lv r)))
    as (f2 & E2 & H2); auto.
  { intros r b Hr Hb. unfold advec_y. eapply stream_holds; eauto; try (cbn; tauto). apply (lv_full g P lv HC Rv); cbn; auto. }
  rewrite E2. cbn [bind].
  destruct (transpose_correct R uninit false g X2DSplit V2DSplit P lx lv f2
     (map (fun r => repeat uninit (range_size (lx r))) (seq 0 P)) F2 HC Rx Rv) as (h & E3 & H3); auto.
  { rewrite map_length, seq_length. reflexivity. }
  { intros r b Hr Hb. erewrite map_nth_error in Hb.
    - injection Hb as <-. apply repeat_length.
    - rewrite nth_error_nth' with (d := 0%nat) by (rewrite seq_length; auto). rewrite seq_nth; auto. }
  rewrite E3. cbn [bind].
  cbv iota in H3.
  set (F3 := accelerate g itp coordinate charges masses ielec GVX Ex (dt / 2) F2).
  destruct (every_rank_holds P lx lx h F2 F3 (fun r b => let* e := rd efield (Z.of_nat r) in
      advec_vx g charges masses ielec itp coordinate (sub_range [GX; GY] (lv r)) (fst e) (dt / 2) (lx r) b))
    as (h1 & E4 & H4); auto.
  { intros r b Hr Hb. destruct (HE r Hr) as (ex & ey & E & HH1 & HH2). rewrite (nth_error_rd _ _ _ E). cbn [bind fst snd].
    rewrite (lv_xy g P lv HC Rv r Hr). unfold advec_vx. eapply accelerate_holds; eauto; try (cbn; tauto). apply (lx_full g P lx HC Rx); cbn; auto. }
  rewrite E4. cbn [bind].
  set (F4 := accelerate g itp coordinate charges masses ielec GVY Ey dt F3).
  destruct (every_rank_holds P lx lx h1 F3 F4 (fun r b => let* e := rd efield (Z.of_nat r) in
      advec_vy g charges masses ielec itp coordinate (sub_range [GX; GY] (lv r)) (snd e) dt (lx r) b))
    as (h2 & E5 & H5); auto.
  { intros r b Hr Hb. destruct (HE r Hr) as (ex & ey & E & HH1 & HH2). rewrite (nth_error_rd _ _ _ E). cbn [bind fst snd].
    rewrite (lv_xy g P lv HC Rv r Hr). unfold advec_vy. eapply accelerate_holds; eauto; try (cbn; tauto). apply (lx_full g P lx HC Rx); cbn; auto. }
  rewrite E5. cbn [bind].
  set (F5 := accelerate g itp coordinate charges masses ielec GVX Ex (dt / 2) F4).
  destruct (every_rank_holds P lx lx h2 F4 F5 (fun r b => let* e := rd efield (Z.of_nat r) in
      advec_vx g charges masses ielec itp coordinate (sub_range [GX; GY] (lv r)) (fst e) (dt / 2) (lx r) b))
    as (h3 & E6 & H6); auto.
  { intros r b Hr Hb. destruct (HE r Hr) as (ex & ey & E & HH1 & HH2). rewrite (nth_error_rd _ _ _ E). cbn [bind fst snd].
    rewrite (lv_xy g P lv HC Rv r Hr). unfold advec_vx. eapply accelerate_holds; eauto; try (cbn; tauto). apply (lx_full g P lx HC Rx); cbn; auto. }
  rewrite E6. cbn [bind].
  destruct (transpose_correct R uninit true g X2DSplit V2DSplit P lx lv h3 f2 F5 HC Rx Rv) as (f3 & E7 & H7); auto.
  { apply H2. }
  { intros r b Hr Hb. destruct H2 as [_ H2]. destruct (H2 r Hr) as (b' & Eb & Lb & _). congruence. }
  rewrite E7. cbn [bind]. cbv iota in H7.
  set (F6 := stream g itp coordinate masses ielec GY GVY (dt / 2) F5).
  destruct (every_rank_holds P lv lv f3 F5 F6 (fun r => advec_y g masses ielec itp coordinate (dt / 2) (lv r)))
    as (f4 & E8 & H8); auto.
  { intros r b Hr Hb. unfold advec_y. eapply stream_holds; eauto; try (cbn; tauto). apply (lv_full g P lv HC Rv); cbn; auto. }
  rewrite E8. cbn [bind].
  apply (every_rank_holds P lv lv f4 F6); auto.
  intros r b Hr Hb. unfold advec_x. unfold vlasov_step. fold F1 F2 F3 F4 F5 F6.
  eapply stream_holds; eauto; try (cbn; tauto). apply (lv_full g P lv HC Rv); cbn; auto.
Qed.
End Solver.
