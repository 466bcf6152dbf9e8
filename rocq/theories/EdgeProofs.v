From Verif Require Import EdgeModel EdgeSpec XVxProofs CollIntraProofs RestrictProofs.
From Coq Require Import ZifyBool Znumtheory.
Open Scope R_scope.

Lemma last_back e : full_back e = e_last e.
Proof. unfold full_back, full_size, e_last. destruct (e_per e); lia. Qed.

Lemma cells_pos e : valid_edge e -> (1 <= n_cells e)%Z /\ (0 <= e_fr e)%Z /\ n_cells e = (e_last e - e_fr e)%Z.
Proof.
  unfold valid_edge, valid_mesh, n_cells, full_size, e_last. intros [_ [H1 H2]].
  destruct (e_per e); lia.
Qed.

Lemma e_coord_ok e i : valid_edge e -> (e_fr e <= i <= e_last e)%Z -> e_coord e i = Ok (pt e i).
Proof.
  unfold valid_edge, valid_mesh, e_last, e_coord, pt. intros [_ [H1 H2]] Hi.
  apply rd_point; destruct (e_per e); lia.
Qed.

Lemma pt_incr e i j : valid_edge e -> (e_fr e <= i)%Z -> (i < j)%Z -> (j <= e_last e)%Z -> pt e i < pt e j.
Proof.
  unfold valid_edge, valid_mesh, e_last, pt. intros [I [H1 H2]] Hi Hij Hj.
  apply I. destruct (e_per e); lia.
Qed.

Lemma pt_le e i j : valid_edge e -> (e_fr e <= i)%Z -> (i <= j)%Z -> (j <= e_last e)%Z -> pt e i <= pt e j.
Proof.
  intros V Hi Hij Hj. destruct (Z.eq_dec i j) as [->|N]; [apply Rle_refl|]. left. apply pt_incr; try assumption. lia.
Qed.

Lemma pt_inj e i j : valid_edge e -> (e_fr e <= i <= e_last e)%Z -> (e_fr e <= j <= e_last e)%Z -> pt e i = pt e j -> i = j.
Proof.
  intros V Hi Hj E. destruct (Ztrichotomy i j) as [L|[L|L]]; [|assumption|]; exfalso.
  - pose proof (pt_incr e i j V). assert (pt e i < pt e j) by (apply H; lia). lra.
  - pose proof (pt_incr e j i V). assert (pt e j < pt e i) by (apply H; lia). lra.
Qed.

Lemma min_max e : valid_edge e -> e_min e < e_max e.
Proof. intros V. destruct (cells_pos e V) as [C [F E]]. apply pt_incr; try assumption; lia. Qed.

Lemma e_length_ok e : valid_edge e -> e_length e = Ok (e_max e - e_min e).
Proof.
  intros V. pose proof (min_max e V) as M. destruct (cells_pos e V) as [C [F E]].
  unfold e_length, interval_length. fold (e_coord e (e_fr e)). rewrite e_coord_ok by (assumption || lia). cbn [bind].
  replace (e_fr e + Z.of_nat (e_n e) - (if e_per e then 0 else 1))%Z with (e_last e)
    by (unfold e_last; destruct (e_per e); lia).
  fold (e_coord e (e_last e)). rewrite e_coord_ok by (assumption || lia). cbn [bind].
  fold (e_min e) (e_max e). rewrite Rabs_right by lra. reflexivity.
Qed.

Lemma fmod_small x y : 0 <= x < y -> fmod x y = x.
Proof.
  intros H. unfold fmod. assert (Q : 0 <= x / y < 1).
  { split; [apply Rmult_le_pos; [lra|left; apply Rinv_0_lt_compat; lra]|].
    apply (Rmult_lt_reg_r y); [lra|]. unfold Rdiv. rewrite Rmult_assoc, Rinv_l by lra. lra. }
  destruct (Rle_dec 0 (x / y)) as [_|N]; [|lra].
  replace (Int_part (x / y)) with 0%Z; [ring|]. symmetry. apply Int_part_unique. simpl. lra.
Qed.
Lemma fmod_self y : 0 < y -> fmod y y = 0.
Proof.
  intros H. unfold fmod. replace (y / y) with 1 by (field; lra).
  destruct (Rle_dec 0 1); [|lra]. replace (Int_part 1) with 1%Z; [ring|]. symmetry. apply Int_part_unique. simpl. lra.
Qed.

Lemma edge_map_range agree cur tgt x : valid_edge cur -> valid_edge tgt -> e_min cur <= x <= e_max cur ->
  e_min tgt <= edge_map agree cur tgt x <= e_max tgt.
Proof.
  intros V1 V2 H. pose proof (min_max _ V1) as M1. pose proof (min_max _ V2) as M2. unfold edge_map.
  set (q := (x - e_min cur) / (e_max cur - e_min cur)).
  assert (Q : 0 <= q <= 1).
  { unfold q. split; [apply Rmult_le_pos; [lra|left; apply Rinv_0_lt_compat; lra]|].
    apply (Rmult_le_reg_r (e_max cur - e_min cur)); [lra|]. unfold Rdiv. rewrite Rmult_assoc, Rinv_l by lra. lra. }
  cbv zeta. destruct agree; nra.
Qed.

Theorem transform_ok agree cur tgt x : valid_edge cur -> valid_edge tgt -> e_min cur <= x <= e_max cur ->
  transform_edge_coord agree cur tgt x = Ok (canon tgt (edge_map agree cur tgt x)).
Proof.
  intros V1 V2 H. pose proof (min_max _ V1) as M1. pose proof (min_max _ V2) as M2.
  destruct (cells_pos _ V1) as [C1 [F1 E1]]. destruct (cells_pos _ V2) as [C2 [F2 E2]].
  unfold transform_edge_coord. rewrite e_coord_ok by (assumption || lia). cbn [bind]. rewrite e_length_ok by assumption.
  cbn [bind]. rewrite e_coord_ok by (assumption || lia). cbn [bind]. rewrite e_length_ok by assumption. cbn [bind].
  fold (e_min cur) (e_min tgt). pose proof (edge_map_range agree cur tgt x V1 V2 H) as R.
  unfold canon. f_equal.
  assert (EQ : e_min tgt + (if agree then (x - e_min cur) / (e_max cur - e_min cur) * (e_max tgt - e_min tgt)
     else e_max tgt - e_min tgt - (x - e_min cur) / (e_max cur - e_min cur) * (e_max tgt - e_min tgt)) =
     edge_map agree cur tgt x) by (unfold edge_map; cbv zeta; destruct agree; ring).
  match goal with |- context [fmod ?r0 _] => set (r := r0) in * end. destruct (e_per tgt); [|exact EQ].
  destruct (Req_EM_T (edge_map agree cur tgt x) (e_max tgt)) as [E|N].
  - replace r with (e_max tgt - e_min tgt) by lra. rewrite fmod_self by lra. ring.
  - rewrite fmod_small by lra. exact EQ.
Qed.

Lemma canon_on_edge e y : valid_edge e -> e_min e <= y <= e_max e -> on_edge e (canon e y).
Proof.
  intros V H. pose proof (min_max e V). unfold on_edge, canon. destruct (e_per e).
  - destruct (Req_EM_T y (e_max e)); split; intros; lra.
  - split; [lra|discriminate].
Qed.

Lemma edge_map_inv agree cur tgt x : valid_edge cur -> valid_edge tgt ->
  edge_map agree tgt cur (edge_map agree cur tgt x) = x.
Proof.
  intros V1 V2. pose proof (min_max _ V1) as M1. pose proof (min_max _ V2) as M2.
  unfold edge_map. cbv zeta. destruct agree; field; lra.
Qed.

Lemma edge_map_mono (agree : bool) cur tgt x y : valid_edge cur -> valid_edge tgt -> x < y ->
  if agree return Prop then edge_map agree cur tgt x < edge_map agree cur tgt y else edge_map agree cur tgt y < edge_map agree cur tgt x.
Proof.
  intros V1 V2 H. pose proof (min_max _ V1) as M1. pose proof (min_max _ V2) as M2. unfold edge_map. cbv zeta.
  assert (Q : (x - e_min cur) / (e_max cur - e_min cur) * (e_max tgt - e_min tgt) <
              (y - e_min cur) / (e_max cur - e_min cur) * (e_max tgt - e_min tgt)).
  { apply Rmult_lt_compat_r; [lra|]. apply Rmult_lt_compat_r; [apply Rinv_0_lt_compat; lra|lra]. }
  destruct agree; lra.
Qed.

Lemma edge_map_ends (agree : bool) cur tgt : valid_edge cur -> valid_edge tgt ->
  edge_map agree cur tgt (e_min cur) = (if agree then e_min tgt else e_max tgt) /\
  edge_map agree cur tgt (e_max cur) = (if agree then e_max tgt else e_min tgt).
Proof.
  intros V1 V2. pose proof (min_max _ V1) as M1. pose proof (min_max _ V2) as M2. unfold edge_map. cbv zeta.
  destruct agree; split; field; lra.
Qed.

(** transforming forth and back is the identity on the edge *)
Theorem transform_round_trip agree cur tgt x : valid_edge cur -> valid_edge tgt ->
  e_per cur = e_per tgt -> on_edge cur x ->
  exists y, transform_edge_coord agree cur tgt x = Ok y /\ on_edge tgt y /\
    transform_edge_coord agree tgt cur y = Ok x.
Proof.
  intros V1 V2 P [H HP]. pose proof (min_max _ V1) as M1. pose proof (min_max _ V2) as M2.
  pose proof (edge_map_range agree cur tgt x V1 V2 H) as R.
  exists (canon tgt (edge_map agree cur tgt x)). split; [now apply transform_ok|].
  pose proof (canon_on_edge tgt _ V2 R) as O. split; [assumption|].
  rewrite transform_ok; [|assumption|assumption|apply O]. f_equal.
  pose proof (edge_map_inv agree cur tgt x V1 V2) as INV.
  destruct (edge_map_ends agree tgt cur V2 V1) as [E0 E1].
  unfold canon at 2. destruct (e_per tgt) eqn:PT.
  - destruct (Req_EM_T (edge_map agree cur tgt x) (e_max tgt)) as [E|N].
    + rewrite E in INV. rewrite E0. rewrite E1 in INV. unfold canon. rewrite P.
      destruct agree; [specialize (HP P); lra|]. destruct (Req_EM_T (e_max cur) (e_max cur)); [assumption|lra].
    + rewrite INV. unfold canon. rewrite P. destruct (Req_EM_T x (e_max cur)); [specialize (HP P); lra|reflexivity].
  - rewrite INV. unfold canon. rewrite P. reflexivity.
Qed.

(** ** wrapping of the index *)
Lemma iter_up fr nc k : (0 <= nc)%Z -> forall i, (fr - Z.of_nat k * nc <= i)%Z ->
  let i' := Nat.iter k (fun i => if (i <? fr)%Z then (i + nc)%Z else i) i in
  (fr <= i')%Z /\ exists m, (i' = i + m * nc)%Z /\ (i' < fr + nc \/ m = 0)%Z.
Proof.
  intros Hnc. induction k as [|k IH]; intros i H; cbn [Nat.iter nat_rect].
  - cbv zeta. split; [lia|]. exists 0%Z. split; [lia|]. right. reflexivity.
  - cbv zeta in *. assert (IK : forall i, Nat.iter (S k) (fun i => if (i <? fr)%Z then (i + nc)%Z else i) i =
      Nat.iter k (fun i => if (i <? fr)%Z then (i + nc)%Z else i) (if (i <? fr)%Z then (i + nc)%Z else i)).
    { clear. induction k; intros i; [reflexivity|]. cbn [Nat.iter nat_rect] in *. now rewrite IHk. }
    specialize (IK i). cbn [Nat.iter nat_rect] in IK. unfold Nat.iter in *. rewrite IK.
    destruct (Z.ltb_spec i fr) as [L|L].
    + destruct (IH (i + nc)%Z) as [H1 [m [H2 H3]]]; [lia|]. split; [assumption|]. exists (m + 1)%Z. split; [lia|].
      left. destruct H3 as [H3|H3]; [assumption|]. subst m. lia.
    + destruct (IH i) as [H1 [m [H2 H3]]]; [nia|]. split; [assumption|]. exists m. tauto.
Qed.

Lemma iter_down bk nc k : (0 <= nc)%Z -> forall i, (i < bk + Z.of_nat k * nc)%Z ->
  let i' := Nat.iter k (fun i => if (bk <=? i)%Z then (i - nc)%Z else i) i in
  (i' < bk)%Z /\ exists m, (i' = i - m * nc)%Z /\ (bk - nc <= i' \/ m = 0)%Z.
Proof.
  intros Hnc. induction k as [|k IH]; intros i H; cbn [Nat.iter nat_rect].
  - cbv zeta. split; [lia|]. exists 0%Z. split; [lia|]. right. reflexivity.
  - cbv zeta in *. assert (IK : forall i, Nat.iter (S k) (fun i => if (bk <=? i)%Z then (i - nc)%Z else i) i =
      Nat.iter k (fun i => if (bk <=? i)%Z then (i - nc)%Z else i) (if (bk <=? i)%Z then (i - nc)%Z else i)).
    { clear. induction k; intros i; [reflexivity|]. cbn [Nat.iter nat_rect] in *. now rewrite IHk. }
    specialize (IK i). cbn [Nat.iter nat_rect] in IK. unfold Nat.iter in *. rewrite IK.
    destruct (Z.leb_spec bk i) as [L|L].
    + destruct (IH (i - nc)%Z) as [H1 [m [H2 H3]]]; [lia|]. split; [assumption|]. exists (m + 1)%Z. split; [lia|].
      left. destruct H3 as [H3|H3]; [assumption|]. subst m. lia.
    + destruct (IH i) as [H1 [m [H2 H3]]]; [nia|]. split; [assumption|]. exists m. tauto.
Qed.

Lemma iter_succ {A} n (f : A -> A) x : Nat.iter (S n) f x = f (Nat.iter n f x). Proof. reflexivity. Qed.
Local Opaque Nat.iter.

(** within ten periods the index is reduced to the range *)
Theorem wrap_index_ok e i : valid_edge e -> e_per e = true ->
  (e_fr e - 10 * n_cells e <= i < e_fr e + 11 * n_cells e)%Z ->
  wrap_index e i = (e_fr e + (i - e_fr e) mod (n_cells e))%Z.
Proof.
  intros V P H. destruct (cells_pos e V) as [C [F E]]. unfold wrap_index. rewrite P.
  pose proof (iter_up (e_fr e) (n_cells e) 10 ltac:(lia) i ltac:(lia)) as U. cbv zeta in U.
  set (i1 := Nat.iter 10 _ i) in *. destruct U as [U1 [m [U2 U3]]].
  rewrite last_back.
  pose proof (iter_down (e_last e) (n_cells e) 10 ltac:(lia) i1) as D. cbv zeta in D.
  destruct D as [D1 [m' [D2 D3]]].
  { destruct U3 as [U3|U3]; [|subst m]; lia. }
  set (i2 := Nat.iter 10 _ i1) in *.
  assert (B : (e_fr e <= i2)%Z) by (destruct D3 as [D3|D3]; [lia|subst m'; lia]).
  assert (EQ : (i - e_fr e)%Z = ((m' - m) * n_cells e + (i2 - e_fr e))%Z) by lia.
  rewrite EQ. rewrite (Z.add_comm ((m' - m) * n_cells e)), Z.mod_add by lia. rewrite Z.mod_small by lia. lia.
Qed.

Lemma wrap_index_id e i : valid_edge e -> in_range e i -> wrap_index e i = i.
Proof.
  intros V H. destruct (e_per e) eqn:P; [|unfold wrap_index; now rewrite P].
  destruct (cells_pos e V) as [C [F E]]. unfold in_range in H. unfold e_last in E. rewrite P in E.
  rewrite wrap_index_ok; [|assumption|assumption|lia]. rewrite Z.mod_small by lia. lia.
Qed.

Lemma in_range_last e i : in_range e i -> (e_fr e <= i <= e_last e)%Z /\ (e_per e = true -> i < e_last e)%Z.
Proof. unfold in_range, e_last. destruct (e_per e); split; intros; lia. Qed.

Lemma in_range_iff e i : in_range e i <-> (e_fr e <= i <= e_last e)%Z /\ (e_per e = true -> i < e_last e)%Z.
Proof. unfold in_range, e_last. destruct (e_per e); split; intros; split; intros; try lia. Qed.

(** further than ten periods: the assertion *)
Theorem wrap_index_far rescale agree cur tgt i : valid_edge cur -> e_per cur = true ->
  (i < e_fr cur - 10 * n_cells cur \/ e_fr cur + 11 * n_cells cur < i)%Z ->
  search_uniform rescale agree cur tgt i = AssertFail.
Proof.
  intros V P H. destruct (cells_pos cur V) as [C [F E]]. unfold search_uniform, wrap_index. rewrite P. rewrite last_back.
  assert (ITU : forall k j, (j < e_fr cur)%Z -> Nat.iter k (fun i => if (i <? e_fr cur)%Z then (i + n_cells cur)%Z else i) j =
      (if (j + Z.of_nat k * n_cells cur <? e_fr cur)%Z then j + Z.of_nat k * n_cells cur else
       Nat.iter k (fun i => if (i <? e_fr cur)%Z then (i + n_cells cur)%Z else i) j)%Z).
  { induction k as [|k IH]; intros j Hj.
    - destruct (_ <? _)%Z; [|reflexivity]. change (j = j + 0 * n_cells cur)%Z. lia.
    - destruct (Z.ltb_spec (j + Z.of_nat (S k) * n_cells cur) (e_fr cur)) as [L|L]; [|reflexivity].
      rewrite iter_succ. rewrite IH by assumption.
      replace (j + Z.of_nat k * n_cells cur <? e_fr cur)%Z with true by nia. cbv beta.
      replace (j + Z.of_nat k * n_cells cur <? e_fr cur)%Z with true by nia. lia. }
  assert (IDU : forall k j, (e_fr cur <= j)%Z -> Nat.iter k (fun i => if (i <? e_fr cur)%Z then (i + n_cells cur)%Z else i) j = j).
  { induction k as [|k IH]; intros j Hj; [reflexivity|]. rewrite iter_succ, IH by assumption. cbv beta.
    replace (j <? e_fr cur)%Z with false by lia. reflexivity. }
  assert (IDD : forall k j, (j < e_last cur)%Z -> Nat.iter k (fun i => if (e_last cur <=? i)%Z then (i - n_cells cur)%Z else i) j = j).
  { induction k as [|k IH]; intros j Hj; [reflexivity|]. rewrite iter_succ, IH by assumption. cbv beta.
    replace (e_last cur <=? j)%Z with false by lia. reflexivity. }
  assert (ITD : forall k j, (e_last cur <= j - Z.of_nat k * n_cells cur)%Z -> Nat.iter k (fun i => if (e_last cur <=? i)%Z then (i - n_cells cur)%Z else i) j =
      (j - Z.of_nat k * n_cells cur)%Z).
  { induction k as [|k IH]; intros j Hj; [change (j = j - 0 * n_cells cur)%Z; lia|].
    rewrite iter_succ. rewrite IH by nia. cbv beta.
    replace (e_last cur <=? j - Z.of_nat k * n_cells cur)%Z with true by nia. lia. }
  destruct H as [H|H].
  - rewrite ITU by lia. replace (i + Z.of_nat 10 * n_cells cur <? e_fr cur)%Z with true by lia.
    rewrite IDD by lia. cbv zeta. replace (i + Z.of_nat 10 * n_cells cur <=? e_last cur)%Z with true by lia. cbn [check bind].
    replace (e_fr cur <=? i + Z.of_nat 10 * n_cells cur)%Z with false by lia. reflexivity.
  - rewrite IDU by lia. rewrite ITD by lia. cbv zeta.
    replace (i - Z.of_nat 10 * n_cells cur <=? e_last cur)%Z with false by lia. reflexivity.
Qed.

(** ** uniform grids *)
Lemma uniform_step_pos e h : valid_edge e -> (forall i, (e_fr e <= i <= e_last e)%Z -> pt e i = e_min e + IZR (i - e_fr e) * h) ->
  0 < h /\ e_max e - e_min e = IZR (n_cells e) * h.
Proof.
  intros V U. destruct (cells_pos e V) as [C [F E]]. pose proof (min_max e V) as M.
  unfold e_max in *. rewrite (U (e_last e)) in * by lia. rewrite <- E in *.
  assert (1 <= IZR (n_cells e)) by (apply IZR_le; lia). split; [|ring].
  destruct (Rlt_le_dec 0 h); [assumption|]. nra.
Qed.

Lemma uniform_map agree cur tgt h k i : valid_edge cur -> valid_edge tgt ->
  (forall i, (e_fr cur <= i <= e_last cur)%Z -> pt cur i = e_min cur + IZR (i - e_fr cur) * h) ->
  (forall i, (e_fr tgt <= i <= e_last tgt)%Z -> pt tgt i = e_min tgt + IZR (i - e_fr tgt) * k) ->
  (e_fr cur <= i <= e_last cur)%Z ->
  edge_map agree cur tgt (pt cur i) = e_min tgt +
    (if agree then IZR (i - e_fr cur) * IZR (n_cells tgt) / IZR (n_cells cur)
     else IZR (n_cells tgt) - IZR (i - e_fr cur) * IZR (n_cells tgt) / IZR (n_cells cur)) * k.
Proof.
  intros V1 V2 U1 U2 Hi. destruct (uniform_step_pos _ _ V1 U1) as [P1 L1]. destruct (uniform_step_pos _ _ V2 U2) as [P2 L2].
  destruct (cells_pos cur V1) as [C [F E]]. assert (1 <= IZR (n_cells cur)) by (apply IZR_le; lia).
  unfold edge_map. cbv zeta. rewrite (U1 i Hi). rewrite L1, L2.
  replace (e_max tgt) with (e_min tgt + IZR (n_cells tgt) * k) by lra.
  destruct agree; field; split; lra.
Qed.

Lemma gcd_split a b : (1 <= a)%Z -> (1 <= b)%Z -> let g := Z.gcd a b in
  (1 <= g)%Z /\ (a = g * (a / g))%Z /\ (b = g * (b / g))%Z /\ (1 <= a / g)%Z /\ (1 <= b / g)%Z /\ rel_prime (a / g) (b / g).
Proof.
  intros Ha Hb g. assert (G : (0 < g)%Z).
  { pose proof (Z.gcd_nonneg a b). assert (g <> 0)%Z; [|unfold g in *; lia]. intros E. apply Z.gcd_eq_0_l in E. lia. }
  destruct (Z.gcd_divide_l a b) as [a' Ea]. destruct (Z.gcd_divide_r a b) as [b' Eb]. fold g in Ea, Eb.
  assert (A' : (a / g = a')%Z) by (rewrite Ea; apply Z.div_mul; lia).
  assert (B' : (b / g = b')%Z) by (rewrite Eb; apply Z.div_mul; lia).
  rewrite A', B'. repeat split; try nia.
  - exists a'. lia.
  - exists b'. lia.
  - intros x [x1 H1] [x2 H2]. assert (D : (x * g | g)%Z).
    { unfold g at 2. apply Z.gcd_greatest; [exists x1; rewrite Ea; rewrite H1; ring|exists x2; rewrite Eb; rewrite H2; ring]. }
    destruct D as [y D]. exists y. nia.
Qed.

Lemma match_divides a b v : (1 <= a)%Z -> (1 <= b)%Z ->
  (v mod (a / Z.gcd a b) = 0)%Z <-> exists m, (v * b = m * a)%Z.
Proof.
  intros Ha Hb. destruct (gcd_split a b Ha Hb) as [G [Ea [Eb [A1 [B1 RP]]]]]. set (g := Z.gcd a b) in *.
  set (a' := (a / g)%Z) in *. set (b' := (b / g)%Z) in *. split.
  - intros H. exists (v / a' * b')%Z. rewrite Ea, Eb. assert (v = a' * (v / a'))%Z by (apply Z_div_exact_full_2; lia). nia.
  - intros [m H]. apply Zdivide_mod. apply (Gauss a' b' v); [|assumption]. exists m.
    apply (Z.mul_cancel_l _ _ g); [lia|]. nia.
Qed.

Lemma rescale_exact_spec a b v m : (1 <= a)%Z -> (v * b = m * a)%Z -> rescale_exact v a b = m.
Proof. intros Ha H. unfold rescale_exact. rewrite H. apply Z.quot_mul. lia. Qed.

Theorem uniform_search agree cur tgt i : valid_edge cur -> valid_edge tgt -> uniform cur -> uniform tgt -> in_range cur i ->
  (exists j, search_uniform rescale_exact agree cur tgt i = Ok (Some j) /\ in_range tgt j /\ equivalent agree cur tgt i j) \/
  (search_uniform rescale_exact agree cur tgt i = Ok None /\ forall j, in_range tgt j -> ~ equivalent agree cur tgt i j).
Proof.
  intros V1 V2 [h U1] [k U2] Hi. destruct (cells_pos cur V1) as [C1 [F1 E1]]. destruct (cells_pos tgt V2) as [C2 [F2 E2]].
  destruct (uniform_step_pos _ _ V1 U1) as [P1 L1]. destruct (uniform_step_pos _ _ V2 U2) as [P2 L2].
  pose proof (proj1 (in_range_last _ _ Hi)) as Hi'.
  destruct (gcd_split (n_cells cur) (n_cells tgt) C1 C2) as [G [Ea [Eb [A1 [B1 RP]]]]].
  unfold search_uniform, equivalent. rewrite wrap_index_id by assumption. rewrite !last_back.
  rewrite (uniform_map agree cur tgt h k i) by assumption.
  replace (i <=? e_last cur)%Z with true by lia. replace (e_fr cur <=? i)%Z with true by lia. cbn [check bind].
  replace (Z.gcd (n_cells cur) (n_cells tgt) =? 0)%Z with false by lia.
  replace (n_cells cur / Z.gcd (n_cells cur) (n_cells tgt) =? 0)%Z with false by lia.
  set (nc := n_cells cur) in *. set (nt := n_cells tgt) in *. set (v := (i - e_fr cur)%Z) in *.
  assert (Rnc : 1 <= IZR nc) by (apply IZR_le; lia).
  destruct (Z.eqb_spec (v mod (nc / Z.gcd nc nt)) 0) as [D|D].
  - left. apply match_divides in D as [m Hm]; [|lia|lia]. rewrite (rescale_exact_spec nc nt v m) by lia.
    assert (M : (0 <= m <= nt)%Z) by nia.
    replace (IZR v * IZR nt / IZR nc) with (IZR m).
    2:{ apply (f_equal IZR) in Hm. rewrite !mult_IZR in Hm. rewrite Hm. field. lra. }
    set (m' := if agree then m else (nt - m)%Z).
    replace (if agree then (e_fr tgt + m)%Z else (e_fr tgt + (e_last tgt - (e_fr tgt + m)))%Z) with (e_fr tgt + m')%Z
      by (unfold m'; destruct agree; lia).
    assert (M' : (0 <= m' <= nt)%Z) by (unfold m'; destruct agree; lia).
    replace (e_fr tgt + m' <=? e_last tgt)%Z with true by lia. replace (e_fr tgt <=? e_fr tgt + m')%Z with true by lia.
    cbn [check bind]. eexists. split; [reflexivity|].
    assert (EM : (e_min tgt + (if agree then IZR m else IZR nt - IZR m) * k) = pt tgt (e_fr tgt + m')).
    { rewrite (U2 (e_fr tgt + m')%Z) by lia. replace (e_fr tgt + m' - e_fr tgt)%Z with m' by lia.
      unfold m'. destruct agree; [reflexivity|]. rewrite minus_IZR. reflexivity. }
    rewrite EM. unfold canon. destruct (e_per tgt) eqn:PT; cbn [andb].
    + destruct (Z.eqb_spec (e_fr tgt + m') (e_last tgt)) as [Q|Q].
      * rewrite Q. fold (e_max tgt). split.
        -- apply in_range_iff. split; [lia|intros; lia].
        -- destruct (Req_EM_T (e_max tgt) (e_max tgt)); [reflexivity|contradiction].
      * split; [apply in_range_iff; split; [lia|intros; lia]|].
        destruct (Req_EM_T (pt tgt (e_fr tgt + m')) (e_max tgt)) as [Z|Z]; [|reflexivity].
        exfalso. apply Q. apply (pt_inj tgt); [assumption|lia|lia|exact Z].
    + split; [apply in_range_iff; split; [lia|congruence]|reflexivity].
  - right. split; [reflexivity|]. intros j Hj EQ. apply D. apply match_divides; [lia|lia|].
    assert (X : exists m', e_min tgt + (if agree then IZR v * IZR nt / IZR nc else IZR nt - IZR v * IZR nt / IZR nc) * k = e_min tgt + IZR m' * k).
    { unfold canon in EQ. pose proof (proj1 (in_range_last _ _ Hj)) as Hj'.
      destruct (e_per tgt).
      - destruct (Req_EM_T _ (e_max tgt)) as [Z|Z].
        + exists nt. rewrite Z. lra.
        + exists (j - e_fr tgt)%Z. rewrite EQ. now apply U2.
      - exists (j - e_fr tgt)%Z. rewrite EQ. now apply U2. }
    destruct X as [m' X]. exists (if agree then m' else nt - m')%Z.
    assert (Y : (if agree then IZR v * IZR nt / IZR nc else IZR nt - IZR v * IZR nt / IZR nc) = IZR m').
    { apply (Rmult_eq_reg_r k); [|lra]. lra. }
    apply eq_IZR. rewrite !mult_IZR. destruct agree.
    + cbv iota. rewrite <- Y. field. lra.
    + cbv iota. rewrite minus_IZR, <- Y. field. lra.
Qed.

Lemma equivalent_sym agree cur tgt i j : valid_edge cur -> valid_edge tgt -> e_per cur = e_per tgt ->
  in_range cur i -> in_range tgt j -> equivalent agree cur tgt i j -> equivalent agree tgt cur j i.
Proof.
  intros V1 V2 P Hi Hj E. unfold equivalent in *. apply in_range_last in Hi as [Hi Hi2]. 
  assert (O : on_edge cur (pt cur i)).
  { split; [split; [apply pt_le|apply pt_le]; try assumption; try lia; destruct (cells_pos cur V1) as [? [? ?]]; lia|].
    intros Q. apply pt_incr; try assumption; try lia. }
  destruct (transform_round_trip agree cur tgt (pt cur i) V1 V2 P O) as [y [H1 [[H2 H2b] H3]]].
  rewrite (transform_ok agree cur tgt) in H1 by (assumption || apply O). injection H1 as H1. rewrite E in H1. subst y.
  rewrite transform_ok in H3 by assumption. now injection H3 as H3.
Qed.

Lemma equivalent_unique agree cur tgt i j j' : valid_edge tgt -> in_range tgt j -> in_range tgt j' ->
  equivalent agree cur tgt i j -> equivalent agree cur tgt i j' -> j = j'.
Proof.
  unfold equivalent. intros V Hj Hj' E E'. apply (pt_inj tgt); [assumption|now apply in_range_last|now apply in_range_last|congruence].
Qed.

Theorem uniform_round_trip agree cur tgt i j : valid_edge cur -> valid_edge tgt -> uniform cur -> uniform tgt ->
  e_per cur = e_per tgt -> in_range cur i ->
  search_uniform rescale_exact agree cur tgt i = Ok (Some j) ->
  search_uniform rescale_exact agree tgt cur j = Ok (Some i).
Proof.
  intros V1 V2 U1 U2 P Hi E. destruct (uniform_search agree cur tgt i V1 V2 U1 U2 Hi) as [[j' [E' [Hj EQ]]]|[E' _]]; [|congruence].
  rewrite E in E'. injection E' as <-. pose proof (equivalent_sym agree cur tgt i j V1 V2 P Hi Hj EQ) as S.
  destruct (uniform_search agree tgt cur j V2 V1 U2 U1 Hj) as [[i' [E' [Hi' EQ']]]|[E' N]].
  - rewrite E'. f_equal. f_equal. apply (equivalent_unique agree tgt cur j i' i); assumption.
  - exfalso. exact (N i Hi S).
Qed.

(** ** non uniform grids: the dichotomy *)
Definition raw_image (agree : bool) (cur tgt : edge) (k : Z) : R := edge_map agree tgt cur (pt tgt k).
Section Dichotomy.
Variables (agree : bool) (cur tgt : edge) (x : R).
Hypothesis V1 : valid_edge cur.
Hypothesis V2 : valid_edge tgt.
Local Notation M := (raw_image agree cur tgt).
Local Notation T := (image agree cur tgt).

Lemma tgt_T k : (e_fr tgt <= k <= e_last tgt)%Z ->
  e_coord tgt k = Ok (pt tgt k) /\ transform_edge_coord agree tgt cur (pt tgt k) = Ok (T k).
Proof.
  intros Hk. destruct (cells_pos tgt V2) as [C [F E]]. split; [now apply e_coord_ok|].
  apply transform_ok; try assumption. split; apply pt_le; try assumption; lia.
Qed.

Lemma M_mono a b : (e_fr tgt <= a)%Z -> (a < b)%Z -> (b <= e_last tgt)%Z -> if agree return Prop then M a < M b else M b < M a.
Proof. intros. apply edge_map_mono; try assumption. now apply pt_incr. Qed.
Lemma M_mono_le a b : (e_fr tgt <= a)%Z -> (a <= b)%Z -> (b <= e_last tgt)%Z -> if agree return Prop then M a <= M b else M b <= M a.
Proof.
  intros H1 H2 H3. destruct (Z.eq_dec a b) as [->|N]; [destruct agree; apply Rle_refl|].
  pose proof (M_mono a b H1 ltac:(lia) H3). destruct agree; lra.
Qed.
Lemma M_ends : M (e_fr tgt) = (if agree then e_min cur else e_max cur) /\ M (e_last tgt) = (if agree then e_max cur else e_min cur).
Proof. apply (edge_map_ends agree tgt cur); assumption. Qed.
Lemma M_range k : (e_fr tgt <= k <= e_last tgt)%Z -> e_min cur <= M k <= e_max cur.
Proof.
  intros Hk. destruct (cells_pos tgt V2) as [C [F E]]. apply edge_map_range; try assumption. split; apply pt_le; try assumption; lia.
Qed.
Lemma T_interior k : (e_fr tgt < k < e_last tgt)%Z -> T k = M k.
Proof.
  intros Hk. unfold image, canon. fold (M k). destruct (e_per cur); [|reflexivity].
  destruct (Req_EM_T (M k) (e_max cur)) as [E|]; [|reflexivity]. exfalso.
  destruct M_ends as [E0 E1]. pose proof (M_mono (e_fr tgt) k ltac:(lia) ltac:(lia) ltac:(lia)) as A.
  pose proof (M_mono k (e_last tgt) ltac:(lia) ltac:(lia) ltac:(lia)) as B. destruct agree; lra.
Qed.

Definition bracket (lo hi : Z) : Prop := (e_fr tgt <= lo)%Z /\ (lo < hi)%Z /\ (hi <= e_last tgt)%Z /\
  (if agree return Prop then M lo <= x <= M hi else M hi <= x <= M lo).

Lemma dichotomy_ok fuel : forall lo hi, bracket lo hi -> (hi - lo <= Z.of_nat fuel)%Z ->
  exists lo', dichotomy fuel agree cur tgt x lo hi = Ok (Some (lo', (lo' + 1)%Z)) /\ bracket lo' (lo' + 1).
Proof.
  induction fuel as [|fuel IH]; intros lo hi B Hf; pose proof B as B0; destruct B as [B1 [B2 [B3 B4]]]; [lia|].
  cbn [dichotomy]. destruct (Z.eqb_spec (hi - lo) 1) as [E|N].
  - exists lo. replace (lo + 1)%Z with hi by lia. split; [reflexivity|exact B0].
  - set (mid := (lo + (hi - lo) / 2)%Z).
    assert (HM : (lo < mid < hi)%Z).
    { unfold mid. assert (1 <= (hi - lo) / 2)%Z by (apply Z.div_le_lower_bound; lia).
      assert ((hi - lo) / 2 < hi - lo)%Z by (apply Z.div_lt; lia). lia. }
    destruct (tgt_T mid) as [E1 E2]; [lia|]. rewrite E1. cbn [bind]. rewrite E2. cbn [bind]. rewrite T_interior by lia.
    match goal with |- context [if ?u then dichotomy _ _ _ _ _ mid hi else _] => set (up := u) end.
    assert (UP : (up = true -> if agree return Prop then M mid <= x else x <= M mid) /\
                 (up = false -> if agree return Prop then x <= M mid else M mid <= x)).
    { unfold up. generalize (M mid). intros y. destruct agree.
      - destruct (Rlt_dec y x); split; intros; try discriminate; lra.
      - destruct (Rle_dec x y); split; intros; try discriminate; lra. }
    destruct UP as [U1 U2]. clearbody up. destruct up; apply IH; try lia.
    + specialize (U1 eq_refl). split; [lia|split; [lia|split; [lia|]]]. destruct agree; lra.
    + specialize (U2 eq_refl). split; [lia|split; [lia|split; [lia|]]]. destruct agree; lra.
Qed.

Lemma bracket_start : on_edge cur x -> bracket (e_fr tgt) (e_last tgt).
Proof.
  intros [H _]. destruct (cells_pos tgt V2) as [C [F E]]. destruct M_ends as [E0 E1].
  unfold bracket. rewrite E0, E1. split; [lia|split; [lia|split; [lia|]]]. destruct agree; lra.
Qed.

(** the loop ends and the result is the nearest index of the target *)
Theorem nearest fuel : e_per cur = e_per tgt -> on_edge cur x -> (n_cells tgt <= Z.of_nat fuel)%Z ->
  exists j, get_target_idx fuel agree cur tgt x = Ok (Some j) /\ in_range tgt j /\
    forall k, in_range tgt k -> Rabs (x - T j) <= Rabs (x - T k).
Proof.
  intros P O Hf. destruct (cells_pos tgt V2) as [C [F E]]. destruct M_ends as [E0 E1].
  destruct (dichotomy_ok fuel _ _ (bracket_start O)) as [lo [ED B]]; [lia|].
  pose proof B as [B1 [B2 [B3 B4]]].
  unfold get_target_idx. rewrite last_back, ED. cbn [bind].
  replace (lo <=? e_last tgt)%Z with true by lia. replace (e_fr tgt <=? lo)%Z with true by lia.
  replace (lo + 1 <=? e_last tgt)%Z with true by lia. replace (e_fr tgt <=? lo + 1)%Z with true by lia. cbn [check bind].
  set (hi := if (e_per tgt && (lo + 1 =? e_last tgt))%Z then e_fr tgt else (lo + 1)%Z).
  assert (Hhi : in_range tgt hi).
  { apply in_range_iff. unfold hi. destruct (e_per tgt); cbn [andb]; [|split; [lia|congruence]].
    destruct (Z.eqb_spec (lo + 1) (e_last tgt)); split; intros; lia. }
  assert (Hlo : in_range tgt lo) by (apply in_range_iff; split; intros; lia).
  destruct (tgt_T lo) as [X1 X2]; [lia|]. rewrite X1. cbn [bind]. rewrite X2. cbn [bind].
  destruct (tgt_T hi) as [Y1 Y2]; [now apply in_range_last|]. rewrite Y1. cbn [bind]. rewrite Y2. cbn [bind].
  eexists. split; [reflexivity|]. split; [destruct (Rlt_dec _ _); assumption|].
  assert (K : forall k, in_range tgt k -> Rabs (x - T lo) <= Rabs (x - T k) \/ Rabs (x - T hi) <= Rabs (x - T k)).
  2:{ intros k Hk. destruct (K k Hk); destruct (Rlt_dec (Rabs (x - T lo)) (Rabs (x - T hi))); lra. }
  intros k Hk. pose proof (min_max cur V1) as MM. destruct O as [O1 O2].
  assert (TM : forall k, in_range tgt k -> T k = if (e_per cur && negb agree && (k =? e_fr tgt))%Z then e_min cur else M k).
  { clear k Hk. intros k Hk. apply in_range_last in Hk as [K1 K2].
    destruct (Z.eqb_spec k (e_fr tgt)) as [->|N].
    - unfold image. fold (M (e_fr tgt)). rewrite E0. unfold canon. destruct (e_per cur); cbn [andb]; [|reflexivity].
      destruct agree; cbn [andb negb].
      + destruct (Req_EM_T (e_min cur) (e_max cur)); [lra|reflexivity].
      + destruct (Req_EM_T (e_max cur) (e_max cur)); [reflexivity|contradiction].
    - rewrite andb_false_r. destruct (Z.eq_dec k (e_last tgt)) as [->|N2]; [|apply T_interior; lia].
      unfold image. fold (M (e_last tgt)). unfold canon. destruct (e_per cur) eqn:PC; [|reflexivity].
      rewrite <- P in K2. specialize (K2 eq_refl). lia. }
  rewrite !TM by assumption.
  assert (HM : forall a b, (e_fr tgt <= a)%Z -> (a <= b)%Z -> (b <= e_last tgt)%Z -> if agree return Prop then M a <= M b else M b <= M a)
    by (intros; now apply M_mono_le).
  assert (HR : forall a, (e_fr tgt <= a <= e_last tgt)%Z -> e_min cur <= M a <= e_max cur) by apply M_range.
  apply in_range_last in Hk as [K1 K2].
  assert (HL : (k <= lo \/ lo + 1 <= k)%Z) by lia.
  unfold hi in *. rewrite <- P in *. clear - E0 E1 B1 B2 B3 B4 K1 K2 HM HR HL MM O1 O2 C E.
  pose proof (HR lo ltac:(lia)) as RL. pose proof (HR (lo + 1)%Z ltac:(lia)) as RH. pose proof (HR k K1) as RK.
  assert (KLO : (k <= lo)%Z -> if agree return Prop then M k <= M lo else M lo <= M k) by (intros; apply HM; lia).
  assert (KHI : (lo + 1 <= k)%Z -> if agree return Prop then M (lo + 1)%Z <= M k else M k <= M (lo + 1)%Z) by (intros; apply HM; lia).
  destruct (e_per cur); cbn [andb] in *.
  - specialize (O2 eq_refl). specialize (K2 eq_refl).
    destruct (Z.eqb_spec (lo + 1) (e_last tgt)) as [EL|NL].
    + rewrite EL in *. rewrite Z.eqb_refl. destruct agree; cbn [andb negb].
      * left. assert (k <= lo)%Z by lia. specialize (KLO H). rewrite !Rabs_right by lra. lra.
      * destruct (Z.eqb_spec k (e_fr tgt)) as [->|Nk]; [right; apply Rle_refl|].
        left. assert (k <= lo)%Z by lia. specialize (KLO H).
        destruct (Z.eqb_spec lo (e_fr tgt)) as [->|]; [lia|]. rewrite !Rabs_left1 by lra. lra.
    + replace (lo + 1 =? e_fr tgt)%Z with false by lia. destruct agree; cbn [andb negb].
      * destruct HL as [HL|HL]; [left; specialize (KLO HL); rewrite !Rabs_right by lra; lra|].
        right. specialize (KHI HL). rewrite !Rabs_left1 by lra. lra.
      * destruct HL as [HL|HL].
        -- destruct (Z.eqb_spec k (e_fr tgt)) as [->|Nk].
           ++ right. rewrite !Rabs_right by lra. lra.
           ++ left. specialize (KLO HL). replace (lo =? e_fr tgt)%Z with false by lia. rewrite !Rabs_left1 by lra. lra.
        -- right. specialize (KHI HL). replace (k =? e_fr tgt)%Z with false by lia. rewrite !Rabs_right by lra. lra.
  - destruct HL as [HL|HL].
    + left. specialize (KLO HL). destruct agree; [rewrite !Rabs_right by lra|rewrite !Rabs_left1 by lra]; lra.
    + right. specialize (KHI HL). destruct agree; [rewrite !Rabs_left1 by lra|rewrite !Rabs_right by lra]; lra.
Qed.
End Dichotomy.

Theorem nonuniform_search fuel agree cur tgt i : valid_edge cur -> valid_edge tgt -> e_per cur = e_per tgt ->
  in_range cur i -> (n_cells tgt <= Z.of_nat fuel)%Z ->
  (exists j, search_nonuniform fuel agree cur tgt i = Ok (Some (Some j)) /\ in_range tgt j /\
     Rabs (pt cur i - image agree cur tgt j) < / 10 ^ 14 /\
     forall k, in_range tgt k -> Rabs (pt cur i - image agree cur tgt j) <= Rabs (pt cur i - image agree cur tgt k)) \/
  (search_nonuniform fuel agree cur tgt i = Ok (Some None) /\
     forall k, in_range tgt k -> / 10 ^ 14 <= Rabs (pt cur i - image agree cur tgt k)).
Proof.
  intros V1 V2 P Hi Hf. pose proof (in_range_last _ _ Hi) as [I1 I2].
  assert (O : on_edge cur (pt cur i)).
  { split; [split; [apply pt_le|apply pt_le]; try assumption; try lia; destruct (cells_pos cur V1) as [? [? ?]]; lia|].
    intros Q. apply pt_incr; try assumption; try lia. }
  unfold search_nonuniform. rewrite wrap_index_id by assumption. rewrite last_back.
  replace (i <=? e_last cur)%Z with true by lia. replace (e_fr cur <=? i)%Z with true by lia. cbn [check bind].
  rewrite e_coord_ok by assumption. cbn [bind].
  destruct (nearest agree cur tgt (pt cur i) V1 V2 fuel P O Hf) as [j [E [Hj N]]]. rewrite E. cbn [bind].
  destruct (tgt_T agree cur tgt V1 V2 j) as [X1 X2]; [now apply in_range_last|]. rewrite X1. cbn [bind]. rewrite X2. cbn [bind].
  destruct (Rlt_dec (Rabs (pt cur i - image agree cur tgt j)) (/ 10 ^ 14)) as [L|L].
  - left. exists j. auto.
  - right. split; [reflexivity|]. intros k Hk. specialize (N k Hk). lra.
Qed.

Lemma image_inj agree cur tgt j j' : valid_edge cur -> valid_edge tgt -> e_per cur = e_per tgt ->
  in_range tgt j -> in_range tgt j' -> image agree cur tgt j = image agree cur tgt j' -> j = j'.
Proof.
  intros V1 V2 P Hj Hj' E.
  assert (O : forall j, in_range tgt j -> on_edge tgt (pt tgt j)).
  { clear - V2. intros j Hj. apply in_range_last in Hj as [H1 H2]. destruct (cells_pos tgt V2) as [C [F E]].
    split; [split; apply pt_le; try assumption; lia|]. intros Q. apply pt_incr; try assumption; lia. }
  destruct (transform_round_trip agree tgt cur (pt tgt j) V2 V1 (eq_sym P) (O j Hj)) as [y [H1 [_ H3]]].
  destruct (transform_round_trip agree tgt cur (pt tgt j') V2 V1 (eq_sym P) (O j' Hj')) as [y' [H1' [_ H3']]].
  rewrite transform_ok in H1, H1'; try assumption; try apply (O j Hj); try apply (O j' Hj').
  unfold image in E. apply (pt_inj tgt); [assumption|now apply in_range_last|now apply in_range_last|]. congruence.
Qed.

(** an exact counterpart is always found *)
Theorem nonuniform_exact fuel agree cur tgt i j : valid_edge cur -> valid_edge tgt -> e_per cur = e_per tgt ->
  in_range cur i -> in_range tgt j -> (n_cells tgt <= Z.of_nat fuel)%Z ->
  equivalent agree cur tgt i j -> search_nonuniform fuel agree cur tgt i = Ok (Some (Some j)).
Proof.
  intros V1 V2 P Hi Hj Hf EQ. pose proof (equivalent_sym agree cur tgt i j V1 V2 P Hi Hj EQ) as S. unfold equivalent in S.
  fold (image agree cur tgt j) in S.
  assert (T0 : 0 < / 10 ^ 14) by (apply Rinv_0_lt_compat, pow_lt; lra).
  destruct (nonuniform_search fuel agree cur tgt i V1 V2 P Hi Hf) as [[j' [E [Hj' [L N]]]]|[E N]].
  - rewrite E. do 2 f_equal. specialize (N j Hj). rewrite S in N. replace (pt cur i - pt cur i) with 0 in N by ring. rewrite Rabs_R0 in N.
    assert (Z0 : image agree cur tgt j' = pt cur i).
    { pose proof (Rabs_pos (pt cur i - image agree cur tgt j')). assert (A : Rabs (pt cur i - image agree cur tgt j') = 0) by lra.
      destruct (Req_dec (pt cur i - image agree cur tgt j') 0) as [Z|Z]; [lra|]. now apply Rabs_no_R0 in Z. }
    apply f_equal. apply (image_inj agree cur tgt); try assumption. congruence.
  - exfalso. specialize (N j Hj). rewrite S in N. replace (pt cur i - pt cur i) with 0 in N by ring. rewrite Rabs_R0 in N. lra.
Qed.

(** a target edge with a single point: the dichotomy never ends *)
Theorem single_point_diverges fuel agree cur tgt x : valid_edge cur -> e_per tgt = false -> e_n tgt = 1%nat ->
  (0 <= e_fr tgt < Z.of_nat (length (e_pts tgt)))%Z ->
  get_target_idx fuel agree cur tgt x = Ok None.
Proof.
  intros V1 P N H. unfold get_target_idx. unfold full_back, full_size. rewrite P, N.
  replace (e_fr tgt + (Z.of_nat 1 + 0) - 1)%Z with (e_fr tgt) by lia.
  assert (D : dichotomy fuel agree cur tgt x (e_fr tgt) (e_fr tgt) = Ok None); [|now rewrite D].
  destruct (cells_pos cur V1) as [C [F E]].
  induction fuel as [|fuel IH]; [reflexivity|]. cbn [dichotomy].
  replace (e_fr tgt - e_fr tgt =? 1)%Z with false by lia.
  replace (e_fr tgt + (e_fr tgt - e_fr tgt) / 2)%Z with (e_fr tgt) by (rewrite Z.sub_diag; cbn; lia).
  unfold transform_edge_coord, e_coord at 1 2. rewrite (rd_point _ (Z.to_nat (e_fr tgt))) by lia. cbn [bind].
  unfold e_length at 1, interval_length. rewrite P. rewrite (rd_point _ (Z.to_nat (e_fr tgt))) by lia. cbn [bind].
  rewrite (rd_point _ (Z.to_nat (e_fr tgt))) by lia. cbn [bind].
  rewrite e_coord_ok by (assumption || lia). cbn [bind]. rewrite e_length_ok by assumption. cbn [bind].
  destruct (if agree then _ else _); apply IH.
Qed.

(** the public operator()(idx) and is_match_available *)
Lemma uniform_interface agree cur tgt i : valid_edge cur -> valid_edge tgt ->
  uniform cur -> uniform tgt -> in_range cur i ->
  let s := search_uniform rescale_exact agree cur tgt i in
  (is_match_available s = Ok true /\ exists j, transform_idx s = Ok j /\ in_range tgt j /\ equivalent agree cur tgt i j) \/
  (is_match_available s = Ok false /\ transform_idx s = AssertFail /\ forall j, in_range tgt j -> ~ equivalent agree cur tgt i j).
Proof.
  intros H1 H2 H3 H4 H5 s. destruct (uniform_search agree cur tgt i H1 H2 H3 H4 H5) as [[j [E [A B]]]|[E A]]; fold s in E.
  - left. rewrite E. split; [reflexivity|]. exists j. auto.
  - right. rewrite E. split; [reflexivity|]. split; [reflexivity|exact A].
Qed.
