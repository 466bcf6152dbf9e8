(** Proofs about matching_idx_slice.hpp. *)
From Verif Require Import EdgeModel EdgeSpec EdgeProofs CollIntraProofs.
From Coq Require Import ZifyBool Sorted.
Open Scope R_scope.

(** ** uniform grids *)
Theorem slices_uniform_ok agree e1 e2 : valid_edge e1 -> valid_edge e2 -> uniform e1 -> uniform e2 ->
  e_per e1 = false -> e_per e2 = false -> (Z.of_nat (e_n e1) < 2 ^ 64)%Z -> (Z.of_nat (e_n e2) < 2 ^ 64)%Z ->
  exists l1 l2, slices_uniform e1 e2 = Ok (l1, l2) /\ s_size l1 = s_size l2 /\ (2 <= s_size l1)%Z /\
    (forall k, (0 <= k < s_size l1)%Z -> in_range e1 (slice_at l1 k) /\ in_range e2 (slice_at l2 k) /\
       equivalent agree e1 e2 (slice_at l1 k) (slice_at l2 (if agree then k else s_size l1 - 1 - k)%Z)) /\
    (forall i j, in_range e1 i -> in_range e2 j -> equivalent agree e1 e2 i j ->
       exists k, (0 <= k < s_size l1)%Z /\ i = slice_at l1 k).
Proof.
  intros V1 V2 U1 U2 P1 P2 B1 B2.
  destruct (cells_pos e1 V1) as [C1 [F1 E1]]. destruct (cells_pos e2 V2) as [C2 [F2 E2]].
  assert (N1 : n_cells e1 = (Z.of_nat (e_n e1) - 1)%Z) by (unfold n_cells, full_size; rewrite P1; lia).
  assert (N2 : n_cells e2 = (Z.of_nat (e_n e2) - 1)%Z) by (unfold n_cells, full_size; rewrite P2; lia).
  destruct (gcd_split (n_cells e1) (n_cells e2) C1 C2) as [G [Ea [Eb [A1 [A2 RP]]]]].
  unfold slices_uniform, uniform_step. rewrite <- N1, <- N2. rewrite (Z.gcd_comm (n_cells e2)).
  set (g := Z.gcd (n_cells e1) (n_cells e2)) in *. set (a := (n_cells e1 / g)%Z) in *. set (b := (n_cells e2 / g)%Z) in *.
  replace (g =? 0)%Z with false by lia. cbn [bind]. unfold idx_range_slice, two64.
  rewrite !Z.mod_small by nia. replace (a =? 0)%Z with false by lia. cbn [bind]. replace (b =? 0)%Z with false by lia. cbn [bind].
  rewrite <- N1, <- N2.
  assert (S1 : (n_cells e1 / a = g)%Z) by (rewrite Ea; apply Z.div_mul; lia).
  assert (S2 : (n_cells e2 / b = g)%Z) by (rewrite Eb; apply Z.div_mul; lia).
  rewrite S1, S2. do 2 eexists. split; [reflexivity|]. unfold slice_at. cbn [s_size s_front s_stride]. split; [reflexivity|].
  split; [lia|].
  assert (IN1 : forall k, (0 <= k < g + 1)%Z -> in_range e1 (e_fr e1 + k * a)) by (intros; unfold in_range; nia).
  assert (IN2 : forall k, (0 <= k < g + 1)%Z -> in_range e2 (e_fr e2 + k * b)) by (intros; unfold in_range; nia).
  destruct U1 as [h U1]. destruct U2 as [h2 U2].
  destruct (uniform_step_pos _ _ V1 U1) as [Q1 L1]. destruct (uniform_step_pos _ _ V2 U2) as [Q2 L2].
  assert (Rg : 0 < IZR g) by (apply IZR_lt; lia). assert (Ra : 0 < IZR a) by (apply IZR_lt; lia).
  assert (RC1 : IZR (n_cells e1) = IZR g * IZR a) by (rewrite Ea at 1; now rewrite mult_IZR).
  assert (RC2 : IZR (n_cells e2) = IZR g * IZR b) by (rewrite Eb at 1; now rewrite mult_IZR).
  split.
  - intros k Hk. split; [now apply IN1|]. split; [now apply IN2|]. unfold equivalent, canon. rewrite P2.
    rewrite (uniform_map agree e1 e2 h h2) by (try assumption; apply in_range_last, IN1; assumption).
    set (k' := if agree then k else (g + 1 - 1 - k)%Z).
    assert (Hk' : (0 <= k' < g + 1)%Z) by (unfold k'; destruct agree; lia).
    rewrite (U2 (e_fr e2 + k' * b)%Z) by (apply in_range_last, IN2; assumption).
    replace (e_fr e2 + k' * b - e_fr e2)%Z with (k' * b)%Z by lia. replace (e_fr e1 + k * a - e_fr e1)%Z with (k * a)%Z by lia.
    rewrite RC1, RC2, !mult_IZR. f_equal. f_equal. unfold k'. destruct agree; [field; split; lra|].
    replace (g + 1 - 1 - k)%Z with (g - k)%Z by lia. rewrite minus_IZR. field. split; lra.
  - intros i j Hi Hj EQ. pose proof (proj1 (in_range_last _ _ Hi)) as Hi'. pose proof (proj1 (in_range_last _ _ Hj)) as Hj'.
    unfold equivalent, canon in EQ. rewrite P2 in EQ. rewrite (uniform_map agree e1 e2 h h2) in EQ by assumption.
    rewrite (U2 j) in EQ by assumption.
    assert (D : ((i - e_fr e1) mod (n_cells e1 / Z.gcd (n_cells e1) (n_cells e2)) = 0)%Z).
    { apply match_divides; [lia|lia|]. exists (if agree then (j - e_fr e2)%Z else (n_cells e2 - (j - e_fr e2))%Z).
      assert (RN1 : IZR (n_cells e1) <> 0) by (rewrite RC1; nra).
      apply eq_IZR. rewrite !mult_IZR.
      assert (EQ' : (if agree then IZR (i - e_fr e1) * IZR (n_cells e2) / IZR (n_cells e1)
         else IZR (n_cells e2) - IZR (i - e_fr e1) * IZR (n_cells e2) / IZR (n_cells e1)) = IZR (j - e_fr e2))
        by (apply (Rmult_eq_reg_r h2); lra).
      destruct agree; cbv iota; [|rewrite (minus_IZR (n_cells e2))]; rewrite <- EQ'; field; assumption. }
    fold g a in D. apply Z.mod_divide in D; [|lia]. destruct D as [k D]. exists k. unfold in_range in Hi. split; [nia|lia].
Qed.

(** ** non uniform grids *)
Section Conf.
Variables (m : Z -> option Z) (fr : Z).

Lemma conf_pairs_S n : conf_pairs m fr (S n) = conf_pairs m fr n ++
  match m (fr + Z.of_nat n) with Some j => [((fr + Z.of_nat n)%Z, j)] | None => [] end.
Proof. unfold conf_pairs. rewrite seq_S, flat_map_app. cbn [flat_map]. now rewrite app_nil_r. Qed.

Lemma conf_pairs_in n i j : In (i, j) (conf_pairs m fr n) <-> (fr <= i < fr + Z.of_nat n)%Z /\ m i = Some j.
Proof.
  induction n as [|n IH]; [simpl; split; [tauto|lia]|]. rewrite conf_pairs_S, in_app_iff, IH.
  destruct (m (fr + Z.of_nat n)) as [j'|] eqn:E; cbn [In].
  - split.
    + intros [H|[H|[]]]; [split; [lia|tauto]|]. injection H as <- <-. split; [lia|assumption].
    + intros [H1 H2]. destruct (Z.eq_dec i (fr + Z.of_nat n)) as [->|N]; [|left; split; [lia|assumption]].
      right. left. congruence.
  - split; [intros [H|[]]; split; [lia|tauto]|]. intros [H1 H2]. left.
    destruct (Z.eq_dec i (fr + Z.of_nat n)) as [->|N]; [congruence|split; [lia|assumption]].
Qed.

Lemma conf_pairs_sorted n : StronglySorted (fun p q => (fst p < fst q)%Z) (conf_pairs m fr n).
Proof.
  induction n as [|n IH]; [constructor|]. rewrite conf_pairs_S.
  assert (B : forall p, In p (conf_pairs m fr n) -> (fst p < fr + Z.of_nat n)%Z).
  { intros [i j] H. apply conf_pairs_in in H. simpl. lia. }
  destruct (m _) as [j|]; [|now rewrite app_nil_r].
  induction (conf_pairs m fr n) as [|p l IHl]; [repeat constructor|].
  inversion IH as [|? ? S1 S2]; subst. cbn [app]. constructor.
  - apply IHl; [assumption|]. intros q Hq. apply B. now right.
  - apply Forall_app. split; [assumption|]. constructor; [|constructor]. cbn [fst]. apply B. now left.
Qed.
End Conf.

Lemma sorted_nth {A} (R : A -> A -> Prop) d l : StronglySorted R l -> forall a b, (a < b < length l)%nat -> R (nth a l d) (nth b l d).
Proof.
  induction 1 as [|x l S IH F]; intros a b H; [simpl in H; lia|].
  destruct b as [|b]; [lia|]. simpl in H. destruct a as [|a].
  - cbn [nth]. rewrite Forall_forall in F. apply F. apply nth_In. lia.
  - cbn [nth]. apply IH. lia.
Qed.

Lemma conforming_ok search m e1 : (forall i, in_range e1 i -> search i = Ok (m i)) ->
  conforming search e1 = Ok (map fst (conf_pairs m (e_fr e1) (e_n e1)), map snd (conf_pairs m (e_fr e1) (e_n e1))).
Proof.
  intros H. unfold conforming.
  match goal with |- for_res _ ?B _ = _ => set (body := B) end.
  assert (L : forall n, (n <= e_n e1)%nat -> for_res n body ([], []) =
    Ok (map fst (conf_pairs m (e_fr e1) n), map snd (conf_pairs m (e_fr e1) n))); [|now apply L].
  induction n as [|n IH]; intros Hn; [reflexivity|]. cbn [for_res]. rewrite IH by lia. cbn [bind]. unfold body.
  rewrite H by (unfold in_range; lia). cbn [bind]. rewrite conf_pairs_S. destruct (m _); rewrite !map_app; cbn [map fst snd];
    rewrite ?app_nil_r; reflexivity.
Qed.

Lemma vector_step_short v : (length v < 2)%nat -> vector_step v = Ub.
Proof.
  intros H. unfold vector_step, rd. destruct v as [|x [|y v]]; simpl in H; try lia; reflexivity.
Qed.

Lemma rd_nthZ (v : list Z) i k : k = Z.of_nat i -> (i < length v)%nat -> rd v k = Ok (nth i v 0%Z).
Proof.
  intros -> H. unfold rd. replace (Z.of_nat i <? 0)%Z with false by lia. rewrite Nat2Z.id. now rewrite (nth_error_nth' v 0%Z).
Qed.

Lemma vector_step_cases v : (2 <= length v)%nat ->
  (exists d, vector_step v = Ok d /\ forall k, (k + 1 < length v)%nat -> (nth (k + 1) v 0 - nth k v 0 = d)%Z) \/
  (vector_step v = Throw /\ exists k, (k + 1 < length v)%nat /\ (nth (k + 1) v 0 - nth k v 0 <> nth 1 v 0 - nth 0 v 0)%Z).
Proof.
  intros H. unfold vector_step. rewrite (rd_nthZ v 1) by lia. cbn [bind]. rewrite (rd_nthZ v 0) by lia. cbn [bind].
  set (d := (nth 1 v 0 - nth 0 v 0)%Z).
  match goal with |- context [for_res _ ?B _] => set (body := B) end.
  assert (L : forall n, (n <= length v - 2)%nat ->
    (for_res n body tt = Ok tt /\ forall k, (k < n + 1)%nat -> (nth (k + 1) v 0 - nth k v 0 = d)%Z) \/
    (for_res n body tt = Throw /\ exists k, (k + 1 < length v)%nat /\ (nth (k + 1) v 0 - nth k v 0 <> d)%Z)).
  { induction n as [|n IH]; intros Hn.
    - left. split; [reflexivity|]. intros k Hk. assert (k = 0)%nat by lia. subst k. reflexivity.
    - cbn [for_res]. destruct IH as [[E K]|[E K]]; [lia| |right; rewrite E; split; [reflexivity|exact K]].
      rewrite E. cbn [bind]. unfold body. rewrite (rd_nthZ v (n + 2)) by lia. cbn [bind]. rewrite (rd_nthZ v (n + 1)) by lia. cbn [bind].
      destruct (Z.eqb_spec (nth (n + 2) v 0%Z - nth (n + 1) v 0%Z) d) as [Q|Q].
      + left. split; [reflexivity|]. intros k Hk. destruct (Nat.eq_dec k (n + 1)) as [->|N]; [|apply K; lia].
        replace (n + 1 + 1)%nat with (n + 2)%nat by lia. exact Q.
      + right. split; [reflexivity|]. exists (n + 1)%nat. replace (n + 1 + 1)%nat with (n + 2)%nat by lia. split; [lia|exact Q]. }
  destruct (L (length v - 2)%nat (le_n _)) as [[E K]|[E K]].
  - left. exists d. rewrite E. split; [reflexivity|]. intros k Hk. apply K. lia.
  - right. rewrite E. split; [reflexivity|exact K].
Qed.

Lemma arith_nth v d : (forall k, (k + 1 < length v)%nat -> (nth (k + 1) v 0 - nth k v 0 = d)%Z) ->
  forall k, (k < length v)%nat -> (nth k v 0 = nth 0 v 0 + Z.of_nat k * d)%Z.
Proof.
  intros H. induction k as [|k IH]; intros Hk; [lia|]. specialize (H k). replace (k + 1)%nat with (S k) in H by lia.
  rewrite IH in H by lia. lia.
Qed.

(** the slice of a vector that goes from the first to the last index of a range *)
Lemma slice_of_vector v d fr n : (2 <= length v)%nat -> (2 <= n)%nat -> (Z.of_nat n < 2 ^ 64)%Z ->
  (forall k, (k + 1 < length v)%nat -> (nth (k + 1) v 0 - nth k v 0 = d)%Z) ->
  nth 0 v 0%Z = fr -> nth (length v - 1) v 0%Z = (fr + Z.of_nat n - 1)%Z ->
  idx_range_slice fr n d = Ok (Slice fr (Z.of_nat (length v)) d).
Proof.
  intros HL Hn HB HD H0 H1. pose proof (arith_nth v d HD (length v - 1) ltac:(lia)) as A. rewrite H0, H1 in A.
  assert (Q : (Z.of_nat n - 1 = Z.of_nat (length v - 1) * d)%Z) by lia.
  assert (D : (1 <= d)%Z) by nia. assert (D2 : (d < 2 ^ 64)%Z) by nia.
  unfold idx_range_slice, two64. rewrite Z.mod_small by lia. replace (d =? 0)%Z with false by lia. f_equal. f_equal.
  rewrite Q, Z.div_mul by lia. lia.
Qed.

(** a search that pairs the ends of the edges and keeps the order *)
Theorem slices_generic search m e1 e2 : (forall i, in_range e1 i -> search i = Ok (m i)) ->
  (2 <= e_n e1)%nat -> (2 <= e_n e2)%nat -> (Z.of_nat (e_n e1) < 2 ^ 64)%Z -> (Z.of_nat (e_n e2) < 2 ^ 64)%Z ->
  m (e_fr e1) = Some (e_fr e2) ->
  m (e_fr e1 + Z.of_nat (e_n e1) - 1)%Z = Some (e_fr e2 + Z.of_nat (e_n e2) - 1)%Z ->
  let L := conf_pairs m (e_fr e1) (e_n e1) in
  (exists l1 l2, slices_nonuniform search e1 e2 = Ok (l1, l2) /\
     s_size l1 = Z.of_nat (length L) /\ s_size l2 = Z.of_nat (length L) /\
     forall k, (k < length L)%nat -> nth k L (0, 0)%Z = (slice_at l1 (Z.of_nat k), slice_at l2 (Z.of_nat k))) \/
  (slices_nonuniform search e1 e2 = Throw /\
     exists k, (k + 1 < length L)%nat /\
       ((fst (nth (k + 1) L (0, 0)) - fst (nth k L (0, 0)) <> fst (nth 1 L (0, 0)) - fst (nth 0 L (0, 0))) \/
        (snd (nth (k + 1) L (0, 0)) - snd (nth k L (0, 0)) <> snd (nth 1 L (0, 0)) - snd (nth 0 L (0, 0))))%Z).
Proof.
  intros HS N1 N2 B1 B2 M0 M1 L. unfold slices_nonuniform. rewrite (conforming_ok search m) by assumption. fold L. cbn [bind].
  assert (L0 : exists L', L = (e_fr e1, e_fr e2) :: L').
  { unfold L, conf_pairs. destruct (e_n e1) as [|n]; [lia|]. rewrite <- cons_seq. cbn [flat_map].
    replace (e_fr e1 + Z.of_nat 0)%Z with (e_fr e1) by lia. rewrite M0. eexists. reflexivity. }
  assert (L1 : exists L', L = L' ++ [((e_fr e1 + Z.of_nat (e_n e1) - 1)%Z, (e_fr e2 + Z.of_nat (e_n e2) - 1)%Z)]).
  { unfold L. destruct (e_n e1) as [|n]; [lia|]. rewrite conf_pairs_S.
    replace (e_fr e1 + Z.of_nat n)%Z with (e_fr e1 + Z.of_nat (S n) - 1)%Z by lia. rewrite M1. eexists. reflexivity. }
  assert (LL : (2 <= length L)%nat).
  { destruct L0 as [L' E]. destruct L1 as [L'' E']. rewrite E in *. destruct L' as [|p L']; [|simpl; lia].
    destruct L'' as [|q [|? ?]]; simpl in E'; try discriminate. injection E' as E'. lia. }
  assert (F : forall k, nth k (map fst L) 0%Z = fst (nth k L (0, 0)%Z)) by (intros; apply (map_nth fst L (0, 0)%Z)).
  assert (Sn : forall k, nth k (map snd L) 0%Z = snd (nth k L (0, 0)%Z)) by (intros; apply (map_nth snd L (0, 0)%Z)).
  assert (H0 : nth 0 L (0, 0)%Z = (e_fr e1, e_fr e2)) by (destruct L0 as [L' E]; rewrite E; reflexivity).
  assert (H1 : nth (length L - 1) L (0, 0)%Z = ((e_fr e1 + Z.of_nat (e_n e1) - 1)%Z, (e_fr e2 + Z.of_nat (e_n e2) - 1)%Z)).
  { destruct L1 as [L' E]. rewrite E, app_length. simpl length. rewrite app_nth2 by lia.
    replace (length L' + 1 - 1 - length L')%nat with 0%nat by lia. reflexivity. }
  destruct (vector_step_cases (map fst L)) as [[d1 [E1 D1]]|[E1 [k [K1 K2]]]]; [rewrite map_length; lia| |].
  2:{ right. rewrite E1. cbn [bind]. split; [reflexivity|]. rewrite map_length in K1. exists k. split; [assumption|]. left.
      rewrite !F in K2. exact K2. }
  rewrite E1. cbn [bind]. rewrite (slice_of_vector (map fst L) d1) by
    (try assumption; rewrite ?map_length, ?F, ?H0, ?H1; cbn [fst]; first [lia|reflexivity]).
  cbn [bind].
  destruct (vector_step_cases (map snd L)) as [[d2 [E2 D2]]|[E2 [k [K1 K2]]]]; [rewrite map_length; lia| |].
  2:{ right. rewrite E2. cbn [bind]. split; [reflexivity|]. rewrite map_length in K1. exists k. split; [assumption|]. right.
      rewrite !Sn in K2. exact K2. }
  left. rewrite E2. cbn [bind]. rewrite (slice_of_vector (map snd L) d2) by
    (try assumption; rewrite ?map_length, ?Sn, ?H0, ?H1; cbn [snd]; first [lia|reflexivity]).
  cbn [bind]. do 2 eexists. split; [reflexivity|]. cbn [s_size]. rewrite !map_length. split; [reflexivity|]. split; [reflexivity|].
  intros k Hk. unfold slice_at. cbn [s_front s_stride].
  pose proof (arith_nth _ _ D1 k) as Q1. rewrite map_length, !F, H0 in Q1. specialize (Q1 Hk). cbn [fst] in Q1.
  pose proof (arith_nth _ _ D2 k) as Q2. rewrite map_length, !Sn, H0 in Q2. specialize (Q2 Hk). cbn [snd] in Q2.
  rewrite <- Q1, <- Q2. apply surjective_pairing.
Qed.

Lemma search_of_ok agree cur tgt i : valid_edge cur -> valid_edge tgt -> e_per cur = e_per tgt -> in_range cur i ->
  exists r, search_of agree cur tgt i = Ok r /\ search_nonuniform (Z.to_nat (n_cells tgt)) agree cur tgt i = Ok (Some r).
Proof.
  intros V1 V2 P Hi. destruct (cells_pos tgt V2) as [C [F E]]. unfold search_of.
  destruct (nonuniform_search (Z.to_nat (n_cells tgt)) agree cur tgt i V1 V2 P Hi ltac:(lia)) as [[j [X _]]|[X _]];
    rewrite X; cbn [bind]; eexists; split; reflexivity.
Qed.

(** the constructor on non periodic edges of the same orientation *)
Theorem slices_nonuniform_ok e1 e2 : valid_edge e1 -> valid_edge e2 -> e_per e1 = false -> e_per e2 = false ->
  (Z.of_nat (e_n e1) < 2 ^ 64)%Z -> (Z.of_nat (e_n e2) < 2 ^ 64)%Z ->
  slices_nonuniform (search_of true e1 e2) e1 e2 = Throw \/
  exists l1 l2, slices_nonuniform (search_of true e1 e2) e1 e2 = Ok (l1, l2) /\ s_size l1 = s_size l2 /\ (2 <= s_size l1)%Z /\
    (forall k, (0 <= k < s_size l1)%Z -> in_range e1 (slice_at l1 k) /\
       search_of true e1 e2 (slice_at l1 k) = Ok (Some (slice_at l2 k))) /\
    (forall i j, in_range e1 i -> search_of true e1 e2 i = Ok (Some j) ->
       exists k, (0 <= k < s_size l1)%Z /\ i = slice_at l1 k /\ j = slice_at l2 k).
Proof.
  intros V1 V2 P1 P2 B1 B2. assert (P : e_per e1 = e_per e2) by congruence.
  destruct (cells_pos e1 V1) as [C1 [F1 E1]]. destruct (cells_pos e2 V2) as [C2 [F2 E2]].
  assert (N1 : (2 <= e_n e1)%nat) by (destruct V1 as [_ [_ H]]; rewrite P1 in H; lia).
  assert (N2 : (2 <= e_n e2)%nat) by (destruct V2 as [_ [_ H]]; rewrite P2 in H; lia).
  set (m := fun i => match search_of true e1 e2 i with Ok r => r | _ => None end).
  assert (HS : forall i, in_range e1 i -> search_of true e1 e2 i = Ok (m i)).
  { intros i Hi. destruct (search_of_ok true e1 e2 i V1 V2 P Hi) as [r [E _]]. unfold m. rewrite E. reflexivity. }
  assert (EX : forall i j, in_range e1 i -> in_range e2 j -> equivalent true e1 e2 i j -> m i = Some j).
  { intros i j Hi Hj EQ. unfold m, search_of. rewrite (nonuniform_exact _ true e1 e2 i j) by (assumption || lia). reflexivity. }
  assert (LA1 : e_last e1 = (e_fr e1 + Z.of_nat (e_n e1) - 1)%Z) by (unfold e_last; now rewrite P1).
  assert (LA2 : e_last e2 = (e_fr e2 + Z.of_nat (e_n e2) - 1)%Z) by (unfold e_last; now rewrite P2).
  destruct (edge_map_ends true e1 e2 V1 V2) as [X0 X1].
  destruct (slices_generic _ m e1 e2 HS N1 N2 B1 B2) as [[l1 [l2 [E [S1 [S2 H]]]]]|[E _]].
  - apply EX; [unfold in_range; lia|unfold in_range; lia|]. unfold equivalent, canon. rewrite P2. exact X0.
  - apply EX; [unfold in_range; lia|unfold in_range; lia|]. unfold equivalent, canon. rewrite P2.
    rewrite <- LA1, <- LA2. exact X1.
  - right. exists l1, l2. split; [exact E|]. set (L := conf_pairs m (e_fr e1) (e_n e1)) in *.
    assert (IL : forall i j, in_range e1 i -> m i = Some j -> exists k, (k < length L)%nat /\ nth k L (0, 0)%Z = (i, j)).
    { intros i j Hi M. assert (IN : In (i, j) L) by (apply conf_pairs_in; split; [exact Hi|exact M]).
      apply In_nth with (d := (0, 0)%Z) in IN. exact IN. }
    split; [congruence|]. split.
    + assert (Q : (2 <= length L)%nat); [|lia].
      destruct (IL (e_fr e1) (e_fr e2)) as [k0 [K0 K0']]; [unfold in_range; lia|
        apply EX; [unfold in_range; lia|unfold in_range; lia|unfold equivalent, canon; rewrite P2; exact X0]|].
      destruct (IL (e_last e1) (e_last e2)) as [k1 [K1 K1']]; [unfold in_range; lia|
        apply EX; [unfold in_range; lia|unfold in_range; lia|unfold equivalent, canon; rewrite P2; exact X1]|].
      assert (k0 <> k1) by (intros ->; rewrite K0' in K1'; injection K1'; lia). lia.
    + rewrite S1. split.
      * intros k Hk. specialize (H (Z.to_nat k) ltac:(lia)). rewrite Z2Nat.id in H by lia.
        assert (IN : In (slice_at l1 k, slice_at l2 k) L) by (rewrite <- H; apply nth_In; lia).
        apply conf_pairs_in in IN as [R M]. split; [exact R|]. rewrite HS by exact R. now rewrite M.
      * intros i j Hi M. rewrite HS in M by assumption. injection M as M. destruct (IL i j Hi M) as [k [K K']].
        exists (Z.of_nat k). split; [lia|]. rewrite H in K' by assumption. injection K' as <- <-. auto.
  - now left.
Qed.

(** ** what goes wrong *)

Lemma unit_pt n per i : (0 <= i <= Z.of_nat n)%Z -> pt (unit_edge n per) i = IZR i / INR n.
Proof.
  intros H. unfold pt, unit_edge. cbn [e_pts].
  rewrite (nth_indep _ 0 ((fun i => INR i / INR n) 0%nat)) by (rewrite map_length, seq_length; lia).
  rewrite (map_nth (fun i => INR i / INR n)), seq_nth by lia. rewrite INR_IZR_INZ. cbn [plus]. rewrite Z2Nat.id by lia. reflexivity.
Qed.

Lemma unit_last n per : e_last (unit_edge n per) = Z.of_nat n.
Proof. unfold e_last, unit_edge. cbn. destruct per; lia. Qed.

Lemma unit_valid n per : (1 <= n)%nat -> valid_edge (unit_edge n per) /\ uniform (unit_edge n per).
Proof.
  intros H. assert (P : 0 < INR n) by (apply lt_0_INR; lia). split.
  - split; [|split; [simpl; lia|]].
    + intros i j Hij. cbn [e_pts unit_edge] in *. rewrite map_length, seq_length in Hij.
      rewrite !(nth_indep _ 0 ((fun i => INR i / INR n) 0%nat)) by (rewrite map_length, seq_length; lia).
      rewrite !(map_nth (fun i => INR i / INR n)), !seq_nth by lia. cbn [plus].
      apply Rmult_lt_compat_r; [now apply Rinv_0_lt_compat|]. apply lt_INR. lia.
    + cbn [e_per unit_edge e_pts e_n e_fr]. rewrite map_length, seq_length. destruct per; simpl; lia.
  - exists (/ INR n). intros i Hi. rewrite unit_last in Hi. change (e_fr (unit_edge n per)) with 0%Z in *.
    unfold e_min. change (e_fr (unit_edge n per)) with 0%Z. rewrite !unit_pt by lia. rewrite Z.sub_0_r. unfold Rdiv. simpl IZR. ring.
Qed.

Lemma unit_min_max n per : (1 <= n)%nat -> e_min (unit_edge n per) = 0 /\ e_max (unit_edge n per) = 1.
Proof.
  intros H. assert (P : 0 < INR n) by (apply lt_0_INR; lia). unfold e_min, e_max. rewrite unit_last. cbn [e_fr unit_edge].
  rewrite !unit_pt by lia. rewrite <- INR_IZR_INZ. split; field; lra.
Qed.

Lemma unit_map n1 n2 p1 p2 i : (1 <= n1)%nat -> (1 <= n2)%nat -> (0 <= i <= Z.of_nat n1)%Z ->
  edge_map true (unit_edge n1 p1) (unit_edge n2 p2) (pt (unit_edge n1 p1) i) = IZR i / INR n1.
Proof.
  intros H1 H2 Hi. unfold edge_map. destruct (unit_min_max n1 p1 H1) as [-> ->]. destruct (unit_min_max n2 p2 H2) as [-> ->].
  rewrite unit_pt by lia. cbv zeta. assert (0 < INR n1) by (apply lt_0_INR; lia). field. lra.
Qed.

Lemma unit_equivalent n1 n2 per i j : (1 <= n1)%nat -> (1 <= n2)%nat -> (0 <= i < Z.of_nat n1)%Z -> (0 <= j < Z.of_nat n2)%Z ->
  (equivalent true (unit_edge n1 per) (unit_edge n2 per) i j <-> (i * Z.of_nat n2 = j * Z.of_nat n1)%Z).
Proof.
  intros H1 H2 Hi Hj. unfold equivalent. rewrite unit_map by lia. rewrite unit_pt by lia.
  assert (P1 : 0 < INR n1) by (apply lt_0_INR; lia). assert (P2 : 0 < INR n2) by (apply lt_0_INR; lia).
  assert (LT : IZR i / INR n1 < 1).
  { apply (Rmult_lt_reg_r (INR n1)); [assumption|]. unfold Rdiv. rewrite Rmult_assoc, Rinv_l by lra.
    rewrite INR_IZR_INZ, Rmult_1_r, Rmult_1_l. apply IZR_lt. lia. }
  assert (CE : canon (unit_edge n2 per) (IZR i / INR n1) = IZR i / INR n1).
  { unfold canon. destruct (e_per _); [|reflexivity]. destruct (unit_min_max n2 per H2) as [_ ->].
    destruct (Req_EM_T _ 1); [lra|reflexivity]. }
  rewrite CE. split; intros E.
  - apply eq_IZR. rewrite !mult_IZR, <- !INR_IZR_INZ.
    replace (IZR i * INR n2) with (IZR i / INR n1 * (INR n1 * INR n2)) by (field; lra). rewrite E. field. lra.
  - apply (f_equal IZR) in E. rewrite !mult_IZR, <- !INR_IZR_INZ in E.
    apply (Rmult_eq_reg_r (INR n1 * INR n2)); [|nra].
    replace (IZR i / INR n1 * (INR n1 * INR n2)) with (IZR i * INR n2) by (field; lra).
    rewrite E. field. lra.
Qed.

(** periodic uniform grids: the number of cells is taken one too small *)
Theorem slices_periodic_wrong : let e1 := unit_edge 4 true in let e2 := unit_edge 8 true in
  slices_uniform e1 e2 = Ok (Slice 0 2 3, Slice 0 2 7) /\ ~ equivalent true e1 e2 3 7 /\
  equivalent true e1 e2 1 2 /\ equivalent true e1 e2 2 4 /\ equivalent true e1 e2 3 6.
Proof.
  cbv zeta. split; [unfold slices_uniform; cbn [e_n e_fr unit_edge]; vm_compute; reflexivity|]. rewrite !unit_equivalent by lia. lia.
Qed.

(** reversed edges: the stride of the second slice is negative and its size comes out as 1 *)
Theorem slices_reversed_wrong search m e1 e2 l1 l2 : (forall i, in_range e1 i -> search i = Ok (m i)) ->
  (2 <= e_n e1)%nat -> (2 <= e_n e2)%nat -> (Z.of_nat (e_n e1) < 2 ^ 63)%Z -> (Z.of_nat (e_n e2) < 2 ^ 63)%Z ->
  m (e_fr e1) = Some (e_fr e2 + Z.of_nat (e_n e2) - 1)%Z ->
  m (e_fr e1 + Z.of_nat (e_n e1) - 1)%Z = Some (e_fr e2) ->
  slices_nonuniform search e1 e2 = Ok (l1, l2) ->
  (2 <= s_size l1)%Z /\ s_size l2 = 1%Z /\ (s_stride l2 < 0)%Z.
Proof.
  intros HS N1 N2 B1 B2 M0 M1. unfold slices_nonuniform. rewrite (conforming_ok search m) by assumption.
  set (L := conf_pairs m (e_fr e1) (e_n e1)). cbn [bind].
  assert (L0 : exists L', L = (e_fr e1, (e_fr e2 + Z.of_nat (e_n e2) - 1)%Z) :: L').
  { unfold L, conf_pairs. destruct (e_n e1) as [|n]; [lia|]. rewrite <- cons_seq. cbn [flat_map].
    replace (e_fr e1 + Z.of_nat 0)%Z with (e_fr e1) by lia. rewrite M0. eexists. reflexivity. }
  assert (L1 : exists L', L = L' ++ [((e_fr e1 + Z.of_nat (e_n e1) - 1)%Z, e_fr e2)]).
  { unfold L. destruct (e_n e1) as [|n]; [lia|]. rewrite conf_pairs_S.
    replace (e_fr e1 + Z.of_nat n)%Z with (e_fr e1 + Z.of_nat (S n) - 1)%Z by lia. rewrite M1. eexists. reflexivity. }
  assert (LL : (2 <= length L)%nat).
  { destruct L0 as [L' E]. destruct L1 as [L'' E']. rewrite E in *. destruct L' as [|p L']; [|simpl; lia].
    destruct L'' as [|q [|? ?]]; simpl in E'; try discriminate. injection E' as E'. lia. }
  assert (F : forall k, nth k (map fst L) 0%Z = fst (nth k L (0, 0)%Z)) by (intros; apply (map_nth fst L (0, 0)%Z)).
  assert (Sn : forall k, nth k (map snd L) 0%Z = snd (nth k L (0, 0)%Z)) by (intros; apply (map_nth snd L (0, 0)%Z)).
  assert (H0 : nth 0 L (0, 0)%Z = (e_fr e1, (e_fr e2 + Z.of_nat (e_n e2) - 1)%Z)) by (destruct L0 as [L' E]; rewrite E; reflexivity).
  assert (H1 : nth (length L - 1) L (0, 0)%Z = ((e_fr e1 + Z.of_nat (e_n e1) - 1)%Z, e_fr e2)).
  { destruct L1 as [L' E]. rewrite E, app_length. simpl length. rewrite app_nth2 by lia.
    replace (length L' + 1 - 1 - length L')%nat with 0%nat by lia. reflexivity. }
  destruct (vector_step_cases (map fst L)) as [[d1 [E1 D1]]|[E1 _]]; [rewrite map_length; lia| |rewrite E1; discriminate].
  rewrite E1. cbn [bind]. rewrite (slice_of_vector (map fst L) d1) by
    (try assumption; rewrite ?map_length, ?F, ?H0, ?H1; cbn [fst]; first [lia|reflexivity]).
  cbn [bind].
  destruct (vector_step_cases (map snd L)) as [[d2 [E2 D2]]|[E2 _]]; [rewrite map_length; lia| |rewrite E2; discriminate].
  rewrite E2. cbn [bind].
  pose proof (arith_nth _ _ D2 (length L - 1)) as Q2. rewrite map_length, !Sn, H0, H1 in Q2. specialize (Q2 ltac:(lia)). cbn [snd] in Q2.
  assert (DN : (d2 < 0)%Z) by nia. assert (DB : (1 - Z.of_nat (e_n e2) <= d2)%Z) by nia.
  unfold idx_range_slice, two64.
  assert (MD : (d2 mod 2 ^ 64 = 2 ^ 64 + d2)%Z).
  { rewrite <- (Z.mod_add d2 1) by lia. rewrite Z.mod_small; lia. }
  rewrite MD. replace (2 ^ 64 + d2 =? 0)%Z with false by lia. cbn [bind]. rewrite Z.div_small by lia. clear MD.
  intros E. apply (f_equal (fun r => match r with Ok p => p | _ => (l1, l2) end)) in E. cbv beta iota in E.
  assert (X1 : Slice (e_fr e1) (Z.of_nat (length (map fst L))) d1 = l1) by exact (f_equal fst E).
  assert (X2 : Slice (e_fr e2) (0 + 1) d2 = l2) by exact (f_equal snd E). rewrite <- X1, <- X2. cbn [s_size s_stride].
  rewrite map_length. split; [lia|]. split; [reflexivity|assumption].
Qed.

Theorem slices_reversed e1 e2 l1 l2 : valid_edge e1 -> valid_edge e2 -> e_per e1 = false -> e_per e2 = false ->
  (Z.of_nat (e_n e1) < 2 ^ 63)%Z -> (Z.of_nat (e_n e2) < 2 ^ 63)%Z ->
  slices_nonuniform (search_of false e1 e2) e1 e2 = Ok (l1, l2) ->
  (2 <= s_size l1)%Z /\ s_size l2 = 1%Z /\ (s_stride l2 < 0)%Z.
Proof.
  intros V1 V2 P1 P2 B1 B2. assert (P : e_per e1 = e_per e2) by congruence.
  destruct (cells_pos e1 V1) as [C1 [F1 E1]]. destruct (cells_pos e2 V2) as [C2 [F2 E2]].
  assert (N1 : (2 <= e_n e1)%nat) by (destruct V1 as [_ [_ H]]; rewrite P1 in H; lia).
  assert (N2 : (2 <= e_n e2)%nat) by (destruct V2 as [_ [_ H]]; rewrite P2 in H; lia).
  assert (LA1 : e_last e1 = (e_fr e1 + Z.of_nat (e_n e1) - 1)%Z) by (unfold e_last; now rewrite P1).
  assert (LA2 : e_last e2 = (e_fr e2 + Z.of_nat (e_n e2) - 1)%Z) by (unfold e_last; now rewrite P2).
  set (m := fun i => match search_of false e1 e2 i with Ok r => r | _ => None end).
  assert (HS : forall i, in_range e1 i -> search_of false e1 e2 i = Ok (m i)).
  { intros i Hi. destruct (search_of_ok false e1 e2 i V1 V2 P Hi) as [r [E _]]. unfold m. rewrite E. reflexivity. }
  assert (EX : forall i j, in_range e1 i -> in_range e2 j -> equivalent false e1 e2 i j -> m i = Some j).
  { intros i j Hi Hj EQ. unfold m, search_of. rewrite (nonuniform_exact _ false e1 e2 i j) by (assumption || lia). reflexivity. }
  destruct (edge_map_ends false e1 e2 V1 V2) as [X0 X1].
  apply (slices_reversed_wrong _ m); try assumption.
  - apply EX; [unfold in_range; lia|unfold in_range; lia|]. unfold equivalent, canon. rewrite P2, <- LA2. exact X0.
  - apply EX; [unfold in_range; lia|unfold in_range; lia|]. unfold equivalent, canon. rewrite P2, <- LA1. exact X1.
Qed.

(** an instance: the same three points on both sides *)
Lemma slices_reversed_instance : let e := unit_edge 2 false in
  exists l1 l2, slices_nonuniform (search_of false e e) e e = Ok (l1, l2).
Proof.
  intros e. assert (VU : valid_edge e /\ uniform e) by (apply unit_valid; lia). destruct VU as [V U].
  assert (EX : forall i, (0 <= i <= 2)%Z -> search_of false e e i = Ok (Some (2 - i)%Z)).
  { intros i Hi. unfold search_of. rewrite (nonuniform_exact _ false e e i (2 - i)); try assumption; try reflexivity.
    - change (0 <= i < 3)%Z. lia.
    - change (0 <= 2 - i < 3)%Z. lia.
    - unfold equivalent, canon. simpl e_per. cbv iota. unfold edge_map. cbv zeta.
      destruct (unit_min_max 2 false ltac:(lia)) as [E0 E1]. fold e in E0, E1. rewrite E0, E1. unfold e. rewrite (unit_pt 2 false i) by (simpl; lia).
      rewrite (unit_pt 2 false (2 - i)) by (change (Z.of_nat 2) with 2%Z; lia). rewrite minus_IZR. simpl INR. field. }
  unfold slices_nonuniform. rewrite (conforming_ok _ (fun i => Some (2 - i)%Z)) by (intros i Hi; apply EX; change (0 <= i < 3)%Z in Hi; lia).
  cbn [bind]. unfold conf_pairs. simpl. do 2 eexists. reflexivity.
Qed.

(** two periodic edges with a single common point: v[1] is read past the end *)
Theorem slices_single_match_ub : let e1 := unit_edge 2 true in let e2 := unit_edge 3 true in
  slices_nonuniform (search_of true e1 e2) e1 e2 = Ub.
Proof.
  intros e1 e2. assert (VU : valid_edge e1 /\ uniform e1) by (apply unit_valid; lia). destruct VU as [V1 U1].
  assert (VU : valid_edge e2 /\ uniform e2) by (apply unit_valid; lia). destruct VU as [V2 U2].
  assert (S0 : search_of true e1 e2 0 = Ok (Some 0%Z)).
  { unfold search_of. rewrite (nonuniform_exact _ true e1 e2 0 0); try assumption; try reflexivity.
    - change (0 <= 0 < 2)%Z. lia.
    - change (0 <= 0 < 3)%Z. lia.
    - apply unit_equivalent; lia. }
  assert (S1 : search_of true e1 e2 1 = Ok None).
  { unfold search_of.
    destruct (nonuniform_search (Z.to_nat (n_cells e2)) true e1 e2 1 V1 V2 eq_refl) as [[j [E [Hj [A _]]]]|[E _]].
    - change (0 <= 1 < 2)%Z. lia.
    - change (3 <= Z.of_nat (Z.to_nat 3))%Z. lia.
    - exfalso. change (0 <= j < 3)%Z in Hj. unfold image in A. unfold e2 in A. 
      unfold e1 in A. rewrite (unit_map 3 2 true true j) in A by lia.
      assert (CE : canon (unit_edge 2 true) (IZR j / INR 3) = IZR j / INR 3).
      { unfold canon. simpl e_per. cbv iota. destruct (unit_min_max 2 true ltac:(lia)) as [_ ->].
        destruct (Req_EM_T _ 1) as [Q|]; [|reflexivity]. exfalso. assert (IZR j <= 2) by (apply IZR_le; lia). simpl INR in Q. lra. }
      rewrite CE, unit_pt in A by lia.
      replace (1 / INR 2 - IZR j / INR 3) with (1 / 2 - IZR j / 3) in A by (simpl INR; field).
      assert (B : / 10 ^ 14 <= / 6).
      { apply Rinv_le_contravar; [lra|]. apply (Rle_trans _ (10 ^ 1)); [simpl; lra|]. apply Rle_pow; [lra|lia]. }
      assert (C : / 6 <= Rabs (1 / 2 - IZR j / 3)); [|lra].
      destruct (Z_le_gt_dec j 1) as [J|J].
      + assert (IZR j <= 1) by (apply IZR_le; lia). rewrite Rabs_right by lra. lra.
      + assert (2 <= IZR j) by (apply IZR_le; lia). rewrite Rabs_left1 by lra. lra.
    - rewrite E. reflexivity. }
  unfold slices_nonuniform.
  rewrite (conforming_ok _ (fun i => if (i =? 0)%Z then Some 0%Z else None)).
  - cbn [bind]. unfold conf_pairs. simpl. reflexivity.
  - intros i Hi. change (0 <= i < 2)%Z in Hi. destruct (Z.eqb_spec i 0) as [->|N]; [exact S0|].
    replace i with 1%Z by lia. exact S1.
Qed.
