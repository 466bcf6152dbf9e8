(** Proofs about the intra-species collision operator. *)
From Verif Require Import CollIntraModel CollIntraSpec QuadProofs XVxProofs BatchProofs ErfProofs MatrixSpec.
From Coq Require Import ZifyBool.
Open Scope R_scope.

Lemma rdz_ok n f i k : k = Z.of_nat i -> (i < n)%nat -> rdz n f k = Ok (f i).
Proof. intros -> H. unfold rdz. replace ((0 <=? Z.of_nat i) && (Z.of_nat i <? Z.of_nat n))%Z with true by lia. now rewrite Nat2Z.id. Qed.

Lemma tab_ok {A} n (d : A) F h : (forall i, (i < n)%nat -> F i = Ok (h i)) ->
  exists u, tab n d F = Ok u /\ forall i, (i < n)%nat -> u i = h i.
Proof.
  intros H. unfold tab.
  destruct (for_res_inv (fun k u => forall i, (i < k)%nat -> u i = h i) n
    (fun i u => let* x := F i in Ok (upd u i x)) (fun _ => d)) as [u [E U]].
  - intros i Hi. lia.
  - intros i u Hi U. rewrite H by assumption. cbn [bind]. eexists. split; [reflexivity|].
    intros j Hj. destruct (Nat.eq_dec j i) as [->|N]; [apply upd_eq|]. rewrite upd_neq by lia. apply U. lia.
  - exists u. auto.
Qed.

(** ** the parabola derivative is exact on parabolas *)
Theorem d3_exact a b c xm x0 xp : xm < x0 < xp ->
  let P := fun x => a * x * x + b * x + c in
  d3 xm x0 xp (P xm) (P x0) (P xp) = 2 * a * x0 + b.
Proof. intros H P. unfold d3, P. field. repeat split; lra. Qed.

(** ** grids *)
Lemma rd_point pts i k : k = Z.of_nat i -> (i < length pts)%nat -> rd pts k = Ok (nth i pts 0).
Proof.
  intros -> H. unfold rd. replace (Z.of_nat i <? 0)%Z with false by lia. rewrite Nat2Z.id.
  now rewrite (nth_error_nth' pts 0).
Qed.

Theorem ghosted_points_ok pts n : n = length pts -> (2 <= n)%nat ->
  exists g, ghosted_points pts 0 n = Ok g /\ length g = (n + 2)%nat /\
    forall k, (k < n + 2)%nat -> nth k g 0 = ghosted_grid pts k.
Proof.
  intros Hn H2. unfold ghosted_points.
  rewrite (rd_point pts 0) by lia. cbn [bind]. rewrite (rd_point pts 1) by lia. cbn [bind].
  rewrite (rd_point pts (n - 1)) by lia. cbn [bind]. rewrite (rd_point pts (n - 2)) by lia. cbn [bind].
  replace (Z.to_nat (Z.of_nat n - 1 + 3)) with (n + 2)%nat by lia.
  assert (S0 : shows (n + 2) (repeat 0 (n + 2)) (fun _ => 0)).
  { split; [apply repeat_length|]. intros; now rewrite nth_repeat. }
  destruct (wr_shows _ _ _ 0 (nth 0 pts 0 - (nth 1 pts 0 - nth 0 pts 0)) S0) as [b1 [E1 S1]]; [lia|].
  rewrite E1. cbn [bind].
  destruct (wr_shows _ _ _ (Z.of_nat n - 1 + 3 - 1) (nth (n - 1) pts 0 + (nth (n - 1) pts 0 - nth (n - 2) pts 0)) S1) as [b2 [E2 S2]]; [lia|].
  rewrite E2. cbn [bind].
  destruct (for_res_inv (fun m b => shows (n + 2) b (fun k =>
      if (k =? 0)%nat then nth 0 pts 0 - (nth 1 pts 0 - nth 0 pts 0)
      else if (k =? n + 1)%nat then nth (n - 1) pts 0 + (nth (n - 1) pts 0 - nth (n - 2) pts 0)
      else if (k <=? m)%nat then nth (k - 1) pts 0 else 0)) n
    (fun i b => let* v := rd pts (0 + Z.of_nat i) in wr b (to_index (0 + Z.of_nat i)) v) b2) as [g [Eg [Lg Sg]]].
  - destruct S2 as [L2 H]. split; [assumption|]. intros k Hk. rewrite H by assumption.
    unfold upd. replace (Z.to_nat (Z.of_nat n - 1 + 3 - 1)) with (n + 1)%nat by lia. replace (Z.to_nat 0) with 0%nat by lia.
    destruct (Nat.eqb_spec k 0) as [->|K0].
    + replace (0 =? n + 1)%nat with false by lia. reflexivity.
    + destruct (Nat.eqb_spec k (n + 1)); [reflexivity|]. replace (k <=? 0)%nat with false by lia. reflexivity.
  - intros i b Hi Sb. rewrite (rd_point pts i) by lia. cbn [bind]. unfold to_index.
    destruct (wr_shows _ _ _ (0 + Z.of_nat i + 1) (nth i pts 0) Sb) as [b' [E' [L' S']]]; [lia|].
    exists b'. split; [exact E'|]. split; [assumption|]. intros k Hk. rewrite S' by assumption. unfold upd.
    replace (Z.to_nat (0 + Z.of_nat i + 1)) with (S i) by lia.
    destruct (Nat.eqb_spec k (S i)) as [->|N].
    + replace (S i =? 0)%nat with false by lia. replace (S i =? n + 1)%nat with false by lia.
      replace (S i <=? S i)%nat with true by lia. f_equal. lia.
    + destruct (k =? 0)%nat; [reflexivity|]. destruct (k =? n + 1)%nat; [reflexivity|].
      replace (k <=? S i)%nat with (k <=? i)%nat by lia. reflexivity.
  - exists g. split; [exact Eg|]. split; [assumption|]. intros k Hk. rewrite Sg by assumption.
    unfold ghosted_grid. rewrite <- Hn. destruct (k =? 0)%nat eqn:K0; [ring|]. destruct (k =? n + 1)%nat eqn:K1; [ring|].
    replace (k <=? n)%nat with true by lia. reflexivity.
Qed.

Theorem staggered_points_ok pts n : n = length pts -> (2 <= n)%nat ->
  exists s, staggered_points pts 0 n = Ok s /\ length s = (n + 1)%nat /\
    forall k, (k < n + 1)%nat -> nth k s 0 = (ghosted_grid pts k + ghosted_grid pts (k + 1)) / 2.
Proof.
  intros Hn H2. unfold staggered_points.
  rewrite (rd_point pts 0) by lia. cbn [bind]. rewrite (rd_point pts 1) by lia. cbn [bind].
  rewrite (rd_point pts (n - 1)) by lia. cbn [bind]. rewrite (rd_point pts (n - 2)) by lia. cbn [bind].
  replace (Z.to_nat (Z.of_nat n - 1 + 2)) with (n + 1)%nat by lia.
  assert (S0 : shows (n + 1) (repeat 0 (n + 1)) (fun _ => 0)).
  { split; [apply repeat_length|]. intros; now rewrite nth_repeat. }
  destruct (wr_shows _ _ _ 0 (nth 0 pts 0 - (nth 1 pts 0 - nth 0 pts 0) / 2) S0) as [b1 [E1 S1]]; [lia|].
  rewrite E1. cbn [bind].
  destruct (wr_shows _ _ _ (Z.of_nat n - 1 + 2 - 1) (nth (n - 1) pts 0 + (nth (n - 1) pts 0 - nth (n - 2) pts 0) / 2) S1) as [b2 [E2 S2]]; [lia|].
  rewrite E2. cbn [bind].
  destruct (for_res_inv (fun m b => shows (n + 1) b (fun k =>
      if (k =? 0)%nat then nth 0 pts 0 - (nth 1 pts 0 - nth 0 pts 0) / 2
      else if (k =? n)%nat then nth (n - 1) pts 0 + (nth (n - 1) pts 0 - nth (n - 2) pts 0) / 2
      else if (k <=? m)%nat then (nth (k - 1) pts 0 + nth k pts 0) / 2 else 0)) (n - 1)
    (fun i b => let* v := rd pts (0 + Z.of_nat i) in let* w := rd pts (0 + Z.of_nat i + 1) in
       wr b (0 + Z.of_nat i + 1) ((v + w) / 2)) b2) as [g [Eg [Lg Sg]]].
  - destruct S2 as [L2 H]. split; [assumption|]. intros k Hk. rewrite H by assumption.
    unfold upd. replace (Z.to_nat (Z.of_nat n - 1 + 2 - 1)) with n by lia. replace (Z.to_nat 0) with 0%nat by lia.
    destruct (Nat.eqb_spec k 0) as [->|K0].
    + replace (0 =? n)%nat with false by lia. reflexivity.
    + destruct (Nat.eqb_spec k n); [reflexivity|]. replace (k <=? 0)%nat with false by lia. reflexivity.
  - intros i b Hi Sb. rewrite (rd_point pts i) by lia. cbn [bind]. rewrite (rd_point pts (S i)) by lia. cbn [bind].
    destruct (wr_shows _ _ _ (0 + Z.of_nat i + 1) ((nth i pts 0 + nth (S i) pts 0) / 2) Sb) as [b' [E' [L' S']]]; [lia|].
    exists b'. split; [exact E'|]. split; [assumption|]. intros k Hk. rewrite S' by assumption. unfold upd.
    replace (Z.to_nat (0 + Z.of_nat i + 1)) with (S i) by lia.
    destruct (Nat.eqb_spec k (S i)) as [->|N].
    + replace (S i =? 0)%nat with false by lia. replace (S i =? n)%nat with false by lia.
      replace (S i <=? S i)%nat with true by lia. replace (S i - 1)%nat with i by lia. reflexivity.
    + destruct (k =? 0)%nat; [reflexivity|]. destruct (k =? n)%nat; [reflexivity|].
      replace (k <=? S i)%nat with (k <=? i)%nat by lia. reflexivity.
  - exists g. split; [exact Eg|]. split; [assumption|]. intros k Hk. rewrite Sg by assumption.
    unfold ghosted_grid. rewrite <- Hn. destruct (Nat.eqb_spec k 0) as [->|K0].
    + change (0 + 1 =? 0)%nat with false. replace (0 + 1 =? n + 1)%nat with false by lia.
      change (0 + 1 - 1)%nat with 0%nat. cbv iota. field.
    + replace (k + 1 =? 0)%nat with false by lia. destruct (Nat.eqb_spec k n) as [->|K1].
      * replace (n =? n + 1)%nat with false by lia. rewrite Nat.eqb_refl. field.
      * replace (k =? n + 1)%nat with false by lia. replace (k + 1 =? n + 1)%nat with false by lia.
        replace (k <=? n - 1)%nat with true by lia. replace (k + 1 - 1)%nat with k by lia. reflexivity.
Qed.

Lemma ghosted_grid_incr pts : increasing pts -> (2 <= length pts)%nat ->
  forall k, (k <= length pts)%nat -> ghosted_grid pts k < ghosted_grid pts (k + 1).
Proof.
  intros I H k Hk. set (n := length pts) in *.
  assert (A : nth 0 pts 0 < nth 1 pts 0) by (apply I; fold n; lia).
  assert (B : nth (n - 2) pts 0 < nth (n - 1) pts 0) by (apply I; fold n; lia).
  unfold ghosted_grid. fold n. replace (k + 1 =? 0)%nat with false by lia.
  destruct (Nat.eqb_spec k 0) as [->|K0].
  - replace (0 + 1 =? n + 1)%nat with false by lia. change (0 + 1 - 1)%nat with 0%nat. lra.
  - destruct (Nat.eqb_spec k n) as [->|K1].
    + replace (n =? n + 1)%nat with false by lia. rewrite Nat.eqb_refl. lra.
    + replace (k =? n + 1)%nat with false by lia. replace (k + 1 =? n + 1)%nat with false by lia.
      apply I; fold n; lia.
Qed.

(** uniform grids give the same points *)
Theorem uniform_grids_agree v0 h n : (2 <= n)%nat ->
  let pts := map (fun i => v0 + INR i * h) (seq 0 n) in
  let vN := v0 + INR (n - 1) * h in
  (forall k, (k < n + 2)%nat -> ghosted_uniform v0 vN h n k = ghosted_grid pts k) /\
  (forall k, (k < n + 1)%nat -> staggered_uniform v0 vN h n k = (ghosted_grid pts k + ghosted_grid pts (k + 1)) / 2).
Proof.
  intros H2 pts vN.
  assert (Lp : length pts = n) by (unfold pts; now rewrite map_length, seq_length).
  assert (P : forall i, (i < n)%nat -> nth i pts 0 = v0 + INR i * h).
  { intros i Hi. unfold pts. rewrite (nth_indep _ 0 ((fun i => v0 + INR i * h) 0%nat)) by (rewrite map_length, seq_length; lia).
    rewrite (map_nth (fun i => v0 + INR i * h)). now rewrite seq_nth. }
  assert (N1 : 0 < INR (n - 1)) by (apply (lt_INR 0); lia).
  assert (G : forall k, (k < n + 2)%nat -> ghosted_grid pts k = v0 + (INR k - 1) * h).
  { intros k Hk. unfold ghosted_grid. rewrite Lp. destruct (Nat.eqb_spec k 0) as [->|K0].
    - rewrite !P by lia. simpl. ring.
    - destruct (Nat.eqb_spec k (n + 1)) as [->|K1].
      + rewrite !P by lia. rewrite !minus_INR, plus_INR by lia. simpl. ring.
      + rewrite P by lia. rewrite minus_INR by lia. reflexivity. }
  split; intros k Hk.
  - rewrite G by assumption. unfold ghosted_uniform, uniform_init, vN.
    replace (n - 1 + 3 - 1)%nat with (n - 1 + 2)%nat by lia.
    rewrite plus_INR. replace (INR 2) with 2 by (simpl; ring). field. lra.
  - rewrite !G by lia. unfold staggered_uniform, uniform_init, vN.
    replace (n - 1 + 2 - 1)%nat with (n - 1 + 1)%nat by lia.
    rewrite !plus_INR. replace (INR 1) with 1 by reflexivity. field. lra.
Qed.

(** a front other than index 0 *)
Theorem ghosted_front pts fr n : (2 <= fr)%Z -> (2 <= n)%nat -> (Z.to_nat fr + n <= length pts)%nat ->
  ghosted_points pts fr n = Ub.
Proof.
  intros Hf Hn HL. unfold ghosted_points.
  rewrite (rd_point pts (Z.to_nat fr)) by lia. cbn [bind]. rewrite (rd_point pts (Z.to_nat fr + 1)) by lia. cbn [bind].
  rewrite (rd_point pts (Z.to_nat fr + n - 1)) by lia. cbn [bind]. rewrite (rd_point pts (Z.to_nat fr + n - 2)) by lia. cbn [bind].
  destruct (wr (repeat 0 (Z.to_nat (Z.of_nat n - 1 + 3))) 0 _) as [b1| | |] eqn:E1;
    try (rewrite wr_ok in E1 by (rewrite repeat_length; lia); discriminate).
  cbn [bind]. pose proof (wr_length _ _ _ _ E1) as L1. rewrite repeat_length in L1.
  destruct (wr b1 _ _) as [b2| | |] eqn:E2; try (rewrite wr_ok in E2 by (rewrite L1; lia); discriminate).
  cbn [bind]. pose proof (wr_length _ _ _ _ E2) as L2. rewrite L1 in L2. clear E1 E2 L1 b1.
  assert (HUB : forall m, (m <= n)%nat -> (exists b, for_res m (fun i b => let* v := rd pts (fr + Z.of_nat i) in
      wr b (to_index (fr + Z.of_nat i)) v) b2 = Ok b /\ length b = (n + 2)%nat) \/
    for_res m (fun i b => let* v := rd pts (fr + Z.of_nat i) in wr b (to_index (fr + Z.of_nat i)) v) b2 = Ub).
  { induction m as [|m IH]; intros Hm; [left; exists b2; split; [reflexivity|lia]|].
    destruct IH as [[b [E L]]|E]; [lia| |right; cbn [for_res]; rewrite E; reflexivity].
    cbn [for_res]. rewrite E. cbn [bind]. rewrite (rd_point pts (Z.to_nat fr + m)) by lia. cbn [bind].
    unfold wr, to_index. destruct ((_ <? 0) || _)%Z eqn:EE; [right; reflexivity|left].
    eexists. split; [reflexivity|]. now rewrite replace_nth_length. }
  destruct n as [|n]; [lia|]. cbn [for_res].
  destruct (HUB n) as [[b [E L]]|E]; [lia| |rewrite E; reflexivity].
  rewrite E. cbn [bind]. rewrite (rd_point pts (Z.to_nat fr + n)) by lia. cbn [bind].
  unfold wr, to_index. replace ((fr + Z.of_nat n + 1 <? 0) || (Z.of_nat (length b) <=? fr + Z.of_nat n + 1))%Z with true by lia. reflexivity.
Qed.

(** ** the linear system is the Crank-Nicolson scheme *)
Section CN.
Variables (n : nat) (g Dg Ng Ds : nat -> R) (dt : R).
Hypothesis Hn : (2 <= n)%nat.
Hypothesis Hg : forall k, (k <= n)%nat -> g k < g (k + 1)%nat.

Lemma matrix_row_ok i : (i < n)%nat -> exists A B C, matrix_row n g Dg Ng Ds dt i = Ok (A, B, C) /\
  forall F, A * F i + B * F (i + 1)%nat + C * F (i + 2)%nat =
            F (i + 1)%nat - dt / 2 * coll_op g Dg Ng Ds F (i + 1).
Proof.
  intros Hi. unfold matrix_row, to_index.
  rewrite (rdz_ok _ _ (i + 1)) by lia. cbn [bind]. rewrite (rdz_ok _ _ (i + 2)) by lia. cbn [bind].
  rewrite (rdz_ok _ _ i) by lia. cbn [bind]. rewrite (rdz_ok _ Ds i) by lia. cbn [bind].
  rewrite (rdz_ok _ Ds (i + 1)) by lia. cbn [bind]. rewrite (rdz_ok _ Dg (i + 1)) by lia. cbn [bind].
  rewrite (rdz_ok _ Ng i) by lia. cbn [bind]. rewrite (rdz_ok _ Ng (i + 1)) by lia. cbn [bind].
  rewrite (rdz_ok _ Ng (i + 2)) by lia. cbn [bind].
  do 3 eexists. split; [reflexivity|]. intros F. unfold coll_op, d3. cbv zeta.
  replace (i + 1 - 1)%nat with i by lia. replace (i + 1 + 1)%nat with (i + 2)%nat by lia.
  assert (H1 : g i < g (i + 1)%nat) by (apply Hg; lia).
  assert (H2 : g (i + 1)%nat < g (i + 2)%nat) by (replace (i + 2)%nat with (i + 1 + 1)%nat by lia; apply Hg; lia).
  set (x := g i) in *. set (y := g (i + 1)%nat) in *. set (z := g (i + 2)%nat) in *.
  generalize (F i) (F (i + 1)%nat) (F (i + 2)%nat) (Ds i) (Ds (i + 1)%nat) (Dg (i + 1)%nat) (Ng i) (Ng (i + 1)%nat) (Ng (i + 2)%nat).
  clearbody x y z. intros. field. repeat split; try lra; nra.
Qed.

Lemma rhs_row_ok AA BB CC f t i : (i < n)%nat ->
  rhs_row n AA BB CC f t i =
  Ok (2 * ghosted n t f (i + 1) - (AA i * ghosted n t f i + BB i * ghosted n t f (i + 1) + CC i * ghosted n t f (i + 2))
      - (if (i =? 0)%nat then AA i * t else 0) - (if (i =? n - 1)%nat then CC i * t else 0)).
Proof.
  intros Hi. unfold rhs_row, ghosted. rewrite !(rdz_ok n _ i) by lia. cbn [bind].
  replace (i + 1 =? 0)%nat with false by lia. replace (i + 1 =? n + 1)%nat with false by lia.
  replace (i + 2 =? 0)%nat with false by lia. replace (i + 1 - 1)%nat with i by lia.
  destruct (Nat.eqb_spec i 0) as [->|N0].
  - rewrite (rdz_ok n _ 1) by lia. cbn [bind]. replace (0 + 2 =? n + 1)%nat with false by lia.
    replace (0 =? n - 1)%nat with false by lia. replace (0 + 2 - 1)%nat with 1%nat by lia. f_equal. ring.
  - destruct (Nat.eqb_spec i (n - 1)) as [E|N1].
    + rewrite (rdz_ok n _ (i - 1)) by lia. cbn [bind]. replace (i + 2 =? n + 1)%nat with true by lia.
      replace (i =? n + 1)%nat with false by lia. f_equal. ring.
    + rewrite (rdz_ok n _ (i - 1)) by lia. cbn [bind]. rewrite (rdz_ok n _ (i + 1)) by lia. cbn [bind].
      replace (i + 2 =? n + 1)%nat with false by lia. replace (i =? n + 1)%nat with false by lia.
      replace (i + 2 - 1)%nat with (i + 1)%nat by lia. f_equal. ring.
Qed.

(** the tables computed by the program *)
Lemma rows_ok : exists rows, tab n (0, 0, 0) (matrix_row n g Dg Ng Ds dt) = Ok rows /\
  forall i, (i < n)%nat -> matrix_row n g Dg Ng Ds dt i = Ok (rows i) /\
    forall F, fst (fst (rows i)) * F i + snd (fst (rows i)) * F (i + 1)%nat + snd (rows i) * F (i + 2)%nat =
            F (i + 1)%nat - dt / 2 * coll_op g Dg Ng Ds F (i + 1).
Proof.
  destruct (tab_ok n (0, 0, 0) (matrix_row n g Dg Ng Ds dt)
    (fun i => match matrix_row n g Dg Ng Ds dt i with Ok r => r | _ => (0, 0, 0) end)) as [u [E U]].
  - intros i Hi. destruct (matrix_row_ok i Hi) as [A [B [C [E _]]]]. now rewrite E.
  - exists u. split; [exact E|]. intros i Hi. rewrite U by assumption.
    destruct (matrix_row_ok i Hi) as [A [B [C [E' H]]]]. rewrite E'. split; [reflexivity|exact H].
Qed.

Theorem system_is_cn AA BB CC RR f t x :
  (forall i, (i < n)%nat -> matrix_row n g Dg Ng Ds dt i = Ok (AA i, BB i, CC i)) ->
  (forall i, (i < n)%nat -> rhs_row n AA BB CC f t i = Ok (RR i)) ->
  (is_solution n (tridiag AA BB CC) x RR <-> crank_nicolson_step n (coll_op g Dg Ng Ds) t dt f x).
Proof.
  intros HM HR.
  assert (ROW : forall i F, (i < n)%nat -> AA i * F i + BB i * F (i + 1)%nat + CC i * F (i + 2)%nat =
            F (i + 1)%nat - dt / 2 * coll_op g Dg Ng Ds F (i + 1)).
  { intros i F Hi. destruct (matrix_row_ok i Hi) as [A [B [C [E H]]]]. rewrite HM in E by assumption.
    injection E as -> -> ->. apply H. }
  assert (EQ : forall i, (i < n)%nat ->
    (Rsum n (fun j => tridiag AA BB CC i j * x j) = RR i <->
     x i - f i = dt / 2 * (coll_op g Dg Ng Ds (ghosted n t f) (i + 1) + coll_op g Dg Ng Ds (ghosted n t x) (i + 1)))).
  { intros i Hi. pose proof (HR i Hi) as R1. rewrite rhs_row_ok in R1 by assumption. injection R1 as R1.
    pose proof (ROW i (ghosted n t f) Hi) as F1. pose proof (ROW i (ghosted n t x) Hi) as F2.
    rewrite Rsum_tridiag by assumption.
    assert (S1 : (if Nat.ltb 0 i then AA i * x (i - 1)%nat else 0) + BB i * x i + (if Nat.ltb (S i) n then CC i * x (S i) else 0) =
      AA i * ghosted n t x i + BB i * ghosted n t x (i + 1) + CC i * ghosted n t x (i + 2)
      - (if (i =? 0)%nat then AA i * t else 0) - (if (i =? n - 1)%nat then CC i * t else 0)).
    { unfold ghosted. replace (i + 1 =? 0)%nat with false by lia. replace (i + 1 =? n + 1)%nat with false by lia.
      replace (i + 2 =? 0)%nat with false by lia. replace (i + 1 - 1)%nat with i by lia.
      replace (i =? n + 1)%nat with false by lia. replace (i + 2 - 1)%nat with (S i) by lia.
      destruct (Nat.ltb_spec 0 i).
      - replace (i =? 0)%nat with false by lia. destruct (Nat.ltb_spec (S i) n).
        + replace (i + 2 =? n + 1)%nat with false by lia. replace (i =? n - 1)%nat with false by lia. ring.
        + replace (i + 2 =? n + 1)%nat with true by lia. replace (i =? n - 1)%nat with true by lia. ring.
      - replace (i =? 0)%nat with true by lia. destruct (Nat.ltb_spec (S i) n).
        + replace (i + 2 =? n + 1)%nat with false by lia. replace (i =? n - 1)%nat with false by lia. ring.
        + lia. }
    rewrite S1. clear S1.
    replace (x i) with (ghosted n t x (i + 1))
      by (unfold ghosted; replace (i + 1 =? 0)%nat with false by lia; replace (i + 1 =? n + 1)%nat with false by lia; f_equal; lia).
    replace (f i) with (ghosted n t f (i + 1))
      by (unfold ghosted; replace (i + 1 =? 0)%nat with false by lia; replace (i + 1 =? n + 1)%nat with false by lia; f_equal; lia).
    rewrite F2. rewrite F1 in R1. lra. }
  unfold is_solution, crank_nicolson_step. split; intros H i Hi; apply EQ; auto.
Qed.

(** constant functions: the row sums *)
Lemma row_sum i : (i < n)%nat -> forall A B C, matrix_row n g Dg Ng Ds dt i = Ok (A, B, C) ->
  A + B + C = 1 + dt / 2 * d3 (g i) (g (i + 1)%nat) (g (i + 2)%nat) (Ng i) (Ng (i + 1)%nat) (Ng (i + 2)%nat).
Proof.
  intros Hi A B C E. destruct (matrix_row_ok i Hi) as [A' [B' [C' [E' H]]]]. rewrite E in E'. injection E' as <- <- <-.
  specialize (H (fun _ => 1)). cbv beta in H. rewrite !Rmult_1_r in H. rewrite H. unfold coll_op. cbv zeta.
  replace (i + 1 - 1)%nat with i by lia. replace (i + 1 + 1)%nat with (i + 2)%nat by lia.
  rewrite !Rmult_1_r. unfold d3. unfold Rdiv. ring.
Qed.

(** sufficient condition: off-diagonal coefficients not positive, and the advection not too
    compressive for the time step *)
Theorem dominance AA BB CC :
  (forall i, (i < n)%nat -> matrix_row n g Dg Ng Ds dt i = Ok (AA i, BB i, CC i)) ->
  (forall i, (i < n)%nat -> AA i <= 0 /\ CC i <= 0 /\
     - (2) < dt * d3 (g i) (g (i + 1)%nat) (g (i + 2)%nat) (Ng i) (Ng (i + 1)%nat) (Ng (i + 2)%nat)) ->
  forall i, (i < n)%nat -> pivot AA BB CC i <> 0.
Proof.
  intros HM H. apply strictly_dominant_pivots. intros i Hi. destruct (H i Hi) as [HA [HC HD]].
  pose proof (row_sum i Hi _ _ _ (HM i Hi)) as S.
  rewrite (Rabs_left1 (AA i)), (Rabs_left1 (CC i)) by assumption.
  eapply Rlt_le_trans; [|apply Rle_abs]. lra.
Qed.
End CN.

(** ** number of particles on a uniform grid *)
Lemma coll_op_uniform g D Nu Dm F h k : h <> 0 -> (1 <= k)%nat ->
  (forall j, (j <= k)%nat -> g (j + 1)%nat - g j = h) ->
  coll_op g D Nu Dm F k =
  (Dm k * (F (k + 1)%nat - F k) - Dm (k - 1)%nat * (F k - F (k - 1)%nat)) / (h * h)
  - (Nu (k + 1)%nat * F (k + 1)%nat - Nu (k - 1)%nat * F (k - 1)%nat) / (2 * h).
Proof.
  intros Hh Hk H. unfold coll_op, d3. cbv zeta.
  assert (E1 : g (k + 1)%nat = g k + h) by (specialize (H k); lra || (assert (g (k + 1)%nat - g k = h) by (apply H; lia); lra)).
  assert (E2 : g (k - 1)%nat = g k - h).
  { assert (g (k - 1 + 1)%nat - g (k - 1)%nat = h) by (apply H; lia). replace (k - 1 + 1)%nat with k in H0 by lia. lra. }
  rewrite E1, E2. set (x := g k). clearbody x.
  replace (x + h - x) with h by ring. replace (x - (x - h)) with h by ring.
  replace (x + h - (x - h)) with (2 * h) by ring.
  replace ((x + (x + h)) / 2 - x) with (h / 2) by field. replace (x - (x - h + x) / 2) with (h / 2) by field.
  replace ((x + (x + h)) / 2 - (x - h + x) / 2) with h by field. field. assumption.
Qed.

Lemma coll_op_sum n g D Nu Dm F h : h <> 0 -> (forall j, (j <= n)%nat -> g (j + 1)%nat - g j = h) ->
  Rsum n (fun i => coll_op g D Nu Dm F (i + 1)) = boundary_flux n Nu Dm F h.
Proof.
  intros Hh H.
  set (G := fun j => Dm j * (F (j + 1)%nat - F j) / (h * h) - (Nu (j + 1)%nat * F (j + 1)%nat + Nu j * F j) / (2 * h)).
  rewrite (Rsum_ext n _ (fun i => G (S i) - G i)).
  - rewrite Rsum_telescope. unfold G, boundary_flux. cbn [plus]. field. assumption.
  - intros i Hi. rewrite (coll_op_uniform g D Nu Dm F h); [|assumption|lia|intros; apply H; lia]. unfold G.
    replace (i + 1 - 1)%nat with i by lia. replace (S i) with (i + 1)%nat by lia.
    replace (i + 1 + 1)%nat with (i + 2)%nat by lia. field. assumption.
Qed.

Theorem mass_balance n g D Nu Dm t dt f x h : h <> 0 -> (forall j, (j <= n)%nat -> g (j + 1)%nat - g j = h) ->
  crank_nicolson_step n (coll_op g D Nu Dm) t dt f x ->
  Rsum n x - Rsum n f =
  dt / 2 * (boundary_flux n Nu Dm (ghosted n t f) h + boundary_flux n Nu Dm (ghosted n t x) h).
Proof.
  intros Hh H CN. rewrite <- Rsum_minus. rewrite (Rsum_ext n _ _ (fun i Hi => CN i Hi)).
  rewrite Rsum_scal, Rsum_plus. rewrite !(coll_op_sum n g D Nu Dm _ h) by assumption. reflexivity.
Qed.

(** ** Vcoll and Tcoll *)
Section VT.
Variables (n : nat) (q v f Dg dDg : nat -> R).
Let D := fun i => Dg (i + 1)%nat.
Let dD := fun i => dDg (i + 1)%nat.
Let I0 := Rsum n (fun i => q i * (D i * f i)).
Let I1 := Rsum n (fun i => q i * (v i * D i * f i)).
Let I2 := Rsum n (fun i => q i * (v i * v i * D i * f i)).
Let I3 := Rsum n (fun i => q i * (dD i * f i)).
Let I4 := Rsum n (fun i => q i * ((D i + v i * dD i) * f i)).

Lemma vcoll_tcoll_eq : vcoll_tcoll n q v f Dg dDg =
  Ok (1 / (I0 * I4 - I1 * I3) * (I1 * I4 - I2 * I3), 1 / (I0 * I4 - I1 * I3) * (I0 * I2 - I1 * I1)).
Proof.
  unfold vcoll_tcoll.
  match goal with |- context [for_res n ?B _] => set (body := B) end.
  assert (L : forall m, (m <= n)%nat -> for_res m body (0, 0, 0, 0, 0) =
    Ok (Rsum m (fun i => q i * (D i * f i)), Rsum m (fun i => q i * (v i * D i * f i)),
        Rsum m (fun i => q i * (v i * v i * D i * f i)), Rsum m (fun i => q i * (dD i * f i)),
        Rsum m (fun i => q i * ((D i + v i * dD i) * f i)))).
  { induction m as [|m IH]; intros Hm; [reflexivity|]. cbn [for_res Rsum]. rewrite IH by lia. cbn [bind].
    unfold body. rewrite !(rdz_ok _ _ (m + 1)) by lia. cbn [bind]. unfold D, dD.
    match goal with |- Ok (?a, ?b, ?c, ?d, ?e) = Ok (?a', ?b', ?c', ?d', ?e') =>
      replace a with a' by ring; replace b with b' by ring; replace c with c' by ring; replace d with d' by ring; replace e with e' by ring end.
    reflexivity. }
  rewrite L by lia. reflexivity.
Qed.

Theorem vt_conservation Vc Tc : vcoll_tcoll n q v f Dg dDg = Ok (Vc, Tc) ->
  I0 * I4 - I1 * I3 <> 0 -> I0 * I2 - I1 * I1 <> 0 ->
  let Nu := fun i => Nucoll (D i) (v i) Vc Tc in
  Rsum n (fun i => q i * ((dD i + Nu i) * f i)) = 0 /\
  Rsum n (fun i => q i * ((D i + v i * dD i + v i * Nu i) * f i)) = 0.
Proof.
  intros E HP HT Nu. rewrite vcoll_tcoll_eq in E. injection E as <- <-. set (P := I0 * I4 - I1 * I3) in *.
  set (Q := I0 * I2 - I1 * I1) in *.
  set (Vc := 1 / P * (I1 * I4 - I2 * I3)) in *. set (Tc := 1 / P * Q) in *.
  assert (E1 : Rsum n (fun i => q i * ((dD i + Nu i) * f i)) = I3 - (I1 - Vc * I0) * / Tc).
  { rewrite (Rsum_ext n _ (fun i => q i * (dD i * f i) + (- / Tc * (q i * (v i * D i * f i)) + Vc * / Tc * (q i * (D i * f i)))))
      by (intros; unfold Nu, Nucoll, Rdiv; ring).
    rewrite !Rsum_plus, !Rsum_scal. fold I0 I1 I3. ring. }
  assert (E2 : Rsum n (fun i => q i * ((D i + v i * dD i + v i * Nu i) * f i)) = I4 - (I2 - Vc * I1) * / Tc).
  { rewrite (Rsum_ext n _ (fun i => q i * ((D i + v i * dD i) * f i) + (- / Tc * (q i * (v i * v i * D i * f i)) + Vc * / Tc * (q i * (v i * D i * f i)))))
      by (intros; unfold Nu, Nucoll, Rdiv; ring).
    rewrite !Rsum_plus, !Rsum_scal. fold I1 I2 I4. ring. }
  rewrite E1, E2. unfold Vc, Tc. split.
  - replace (I3 - (I1 - 1 / P * (I1 * I4 - I2 * I3) * I0) * / (1 / P * Q))
      with ((I3 * Q - I1 * P + (I1 * I4 - I2 * I3) * I0) / Q) by (field; auto).
    unfold P, Q. unfold Rdiv. replace (I3 * (I0 * I2 - I1 * I1) - I1 * (I0 * I4 - I1 * I3) + (I1 * I4 - I2 * I3) * I0) with 0 by ring. ring.
  - replace (I4 - (I2 - 1 / P * (I1 * I4 - I2 * I3) * I1) * / (1 / P * Q))
      with ((I4 * Q - I2 * P + (I1 * I4 - I2 * I3) * I1) / Q) by (field; auto).
    unfold P, Q. unfold Rdiv. replace (I4 * (I0 * I2 - I1 * I1) - I2 * (I0 * I4 - I1 * I3) + (I1 * I4 - I2 * I3) * I1) with 0 by ring. ring.
Qed.

(** the numerator of Tcoll is positive for non negative distributions that charge two velocities *)
Theorem tcoll_numerator a b : (a < n)%nat -> (b < n)%nat -> v a <> v b ->
  (forall i, (i < n)%nat -> 0 <= q i * (D i * f i)) ->
  0 < q a * (D a * f a) -> 0 < q b * (D b * f b) ->
  0 < I0 * I2 - I1 * I1.
Proof.
  intros Ha Hb Hv H Pa Pb. set (w := fun i => q i * (D i * f i)) in *.
  assert (P0 : 0 < I0).
  { apply (Rlt_le_trans _ (Rsum n (fun i => if (i =? a)%nat then w a else 0))).
    - rewrite (Rsum_single n _ a) by (try assumption; intros i _ N; replace (i =? a)%nat with false by lia; reflexivity).
      rewrite Nat.eqb_refl. exact Pa.
    - apply Rsum_le. intros i Hi. destruct (Nat.eqb_spec i a) as [->|]; [apply Rle_refl|now apply H]. }
  set (m := I1 / I0).
  assert (V : 0 < Rsum n (fun i => w i * ((v i - m) * (v i - m)))).
  { assert (NN : forall i, (i < n)%nat -> 0 <= w i * ((v i - m) * (v i - m))).
    { intros i Hi. apply Rmult_le_pos; [now apply H|apply Rle_0_sqr]. }
    assert (OR : v a <> m \/ v b <> m) by (destruct (Req_EM_T (v a) m); [right; congruence|now left]).
    assert (K : exists c, (c < n)%nat /\ 0 < w c /\ v c <> m) by (destruct OR; [exists a|exists b]; auto).
    destruct K as [c [Hc [Pc Nc]]].
    apply (Rlt_le_trans _ (Rsum n (fun i => if (i =? c)%nat then w c * ((v c - m) * (v c - m)) else 0))).
    - rewrite (Rsum_single n _ c) by (try assumption; intros i _ N; replace (i =? c)%nat with false by lia; reflexivity).
      rewrite Nat.eqb_refl. apply Rmult_lt_0_compat; [assumption|].
      assert (v c - m <> 0) by lra. destruct (Rdichotomy _ _ H0); nra.
    - apply Rsum_le. intros i Hi. destruct (Nat.eqb_spec i c) as [->|]; [apply Rle_refl|now apply NN]. }
  rewrite (Rsum_ext n _ (fun i => q i * (v i * v i * D i * f i) + (- 2 * m * (q i * (v i * D i * f i)) + m * m * (q i * (D i * f i))))) in V
    by (intros; unfold w; ring).
  rewrite !Rsum_plus, !Rsum_scal in V. fold I1 I2 in V. change (Rsum n (fun i : nat => q i * (D i * f i))) with I0 in V. unfold m in V.
  replace (I2 + (- 2 * (I1 / I0) * I1 + I1 / I0 * (I1 / I0) * I0)) with ((I0 * I2 - I1 * I1) * / I0) in V by (field; lra).
  apply (Rmult_lt_reg_r (/ I0)); [now apply Rinv_0_lt_compat|]. rewrite Rmult_0_l. exact V.
Qed.
End VT.

(** ** the Maxwellian of velocity Vcoll and temperature Tcoll has no collisional flux *)
Theorem maxwellian_no_flux D n V T v : T <> 0 ->
  exists f', derivable_pt_lim (maxwellian n T V) v f' /\
    D * f' - Nucoll D v V T * maxwellian n T V v = 0.
Proof.
  intros HT. exists (- (v - V) / T * maxwellian n T V v). split.
  - unfold maxwellian. set (k := n * (1 / sqrt (2 * PI * T))).
    eapply dpl_eq.
    + apply (derivable_pt_lim_scal (fun v => exp (- (v - V) * (v - V) / (2 * T))) k v).
      apply (derivable_pt_lim_comp (fun v => - (v - V) * (v - V) / (2 * T)) exp v (- (v - V) / T) (exp (- (v - V) * (v - V) / (2 * T)))).
      * eapply derivable_pt_lim_ext' with (f := fun v => - / (2 * T) * ((v - V) * (v - V))); [intros; field; assumption|].
        eapply dpl_eq.
        -- apply (derivable_pt_lim_scal (fun v => (v - V) * (v - V)) (- / (2 * T)) v).
           apply (derivable_pt_lim_mult (fun v => v - V) (fun v => v - V) v (1 - 0) (1 - 0));
             apply (derivable_pt_lim_minus id (fun _ => V) v 1 0); apply derivable_pt_lim_id || apply derivable_pt_lim_const.
        -- field. assumption.
      * apply derivable_pt_lim_exp.
    + unfold Rdiv. ring.
  - unfold Nucoll. field. assumption.
Qed.

(** ** the whole step *)
Theorem intra_step_cn pts n q f nustar dt : n = length pts -> (2 <= n)%nat -> increasing pts ->
  let v := fun i => nth i pts 0 in
  let '(dens0, _, T) := coll_moments n q v f in
  let nu := collfreq nustar dens0 T in
  let g := ghosted_grid pts in
  let Dg := fun k => Dcoll T nu (g k) in
  let Ds := fun k => Dcoll T nu ((g k + g (k + 1)%nat) / 2) in
  exists Vc Tc, vcoll_tcoll n q v f Dg (fun k => dvDcoll T nu (g k)) = Ok (Vc, Tc) /\
  let Ng := fun k => Nucoll (Dg k) (g k) Vc Tc in
  exists AA BB CC, (forall i, (i < n)%nat -> matrix_row n g Dg Ng Ds dt i = Ok (AA i, BB i, CC i)) /\
  ((forall i, (i < n)%nat -> pivot AA BB CC i <> 0) ->
   exists x, intra_step pts n q f nustar dt = Ok x /\
     crank_nicolson_step n (coll_op g Dg Ng Ds) (/ 10 ^ 30) dt f x).
Proof.
  intros Hn H2 I v.
  destruct (coll_moments n q v f) as [[dens0 V0] T] eqn:EM.
  intros nu g Dg Ds.
  destruct (ghosted_points_ok pts n Hn H2) as [gl [Eg [Lg Gg]]].
  destruct (staggered_points_ok pts n Hn H2) as [sl [Es [Ls Gs]]].
  assert (EXT : vcoll_tcoll n q v f (fun k => Dcoll T nu (nth k gl 0)) (fun k => dvDcoll T nu (nth k gl 0)) =
                vcoll_tcoll n q v f Dg (fun k => dvDcoll T nu (g k))).
  { rewrite !vcoll_tcoll_eq. unfold Dg, g.
    assert (G1 : forall i, (i < n)%nat -> nth (i + 1) gl 0 = ghosted_grid pts (i + 1)) by (intros; apply Gg; lia).
    rewrite (Rsum_ext n _ (fun i => q i * (Dcoll T nu (ghosted_grid pts (i + 1)) * f i))) by (intros; now rewrite G1).
    rewrite (Rsum_ext n (fun i => q i * ((Dcoll T nu (nth (i + 1) gl 0) + v i * dvDcoll T nu (nth (i + 1) gl 0)) * f i))
      (fun i => q i * ((Dcoll T nu (ghosted_grid pts (i + 1)) + v i * dvDcoll T nu (ghosted_grid pts (i + 1))) * f i))) by (intros; now rewrite G1).
    rewrite (Rsum_ext n (fun i => q i * (v i * Dcoll T nu (nth (i + 1) gl 0) * f i))
      (fun i => q i * (v i * Dcoll T nu (ghosted_grid pts (i + 1)) * f i))) by (intros; now rewrite G1).
    rewrite (Rsum_ext n (fun i => q i * (v i * v i * Dcoll T nu (nth (i + 1) gl 0) * f i))
      (fun i => q i * (v i * v i * Dcoll T nu (ghosted_grid pts (i + 1)) * f i))) by (intros; now rewrite G1).
    rewrite (Rsum_ext n (fun i => q i * (dvDcoll T nu (nth (i + 1) gl 0) * f i))
      (fun i => q i * (dvDcoll T nu (ghosted_grid pts (i + 1)) * f i))) by (intros; now rewrite G1).
    reflexivity. }
  destruct (vcoll_tcoll n q v f Dg (fun k => dvDcoll T nu (g k))) as [[Vc Tc]| | |] eqn:EV;
    try (rewrite vcoll_tcoll_eq in EV; discriminate).
  exists Vc, Tc. split; [reflexivity|]. intros Ng.
  assert (INC : forall k, (k <= n)%nat -> g k < g (k + 1)%nat).
  { intros k Hk. unfold g. apply ghosted_grid_incr; [assumption|lia|lia]. }
  assert (ROWEXT : forall i, (i < n)%nat ->
    matrix_row n (fun k => nth k gl 0) (fun k => Dcoll T nu (nth k gl 0))
      (fun k => Nucoll (Dcoll T nu (nth k gl 0)) (nth k gl 0) Vc Tc) (fun k => Dcoll T nu (nth k sl 0)) dt i =
    matrix_row n g Dg Ng Ds dt i).
  { intros i Hi. unfold matrix_row, to_index.
    repeat (first [rewrite (rdz_ok _ _ (i + 2)) by lia | rewrite (rdz_ok _ _ (i + 1)) by lia | rewrite (rdz_ok _ _ i) by lia]; cbn [bind]).
    unfold Ng, Ds, Dg, g. rewrite !(Gg (i + 2)%nat), !(Gg (i + 1)%nat), !(Gg i), !(Gs i), !(Gs (i + 1)%nat) by lia. reflexivity. }
  destruct (rows_ok n g Dg Ng Ds dt H2 INC) as [rows [ER HR]].
  destruct (tab_ok n (0, 0, 0) (matrix_row n (fun k => nth k gl 0) (fun k => Dcoll T nu (nth k gl 0))
      (fun k => Nucoll (Dcoll T nu (nth k gl 0)) (nth k gl 0) Vc Tc) (fun k => Dcoll T nu (nth k sl 0)) dt) rows) as [rows' [ER' HR']].
  { intros i Hi. rewrite ROWEXT by assumption. now apply HR. }
  exists (fun i => fst (fst (rows' i))), (fun i => snd (fst (rows' i))), (fun i => snd (rows' i)).
  assert (HM : forall i, (i < n)%nat -> matrix_row n g Dg Ng Ds dt i = Ok (fst (fst (rows' i)), snd (fst (rows' i)), snd (rows' i))).
  { intros i Hi. rewrite (proj1 (HR i Hi)), (HR' i Hi). destruct (rows i) as [[? ?] ?]. reflexivity. }
  split; [exact HM|]. intros PV.
  set (AA := fun i => fst (fst (rows' i))) in *. set (BB := fun i => snd (fst (rows' i))) in *. set (CC := fun i => snd (rows' i)) in *.
  destruct (tab_ok n 0 (rhs_row n AA BB CC f fthresh)
    (fun i => match rhs_row n AA BB CC f fthresh i with Ok r => r | _ => 0 end)) as [RR [ERR HRR]].
  { intros i Hi. rewrite (rhs_row_ok n g Dg Ng Ds H2 INC) by assumption. reflexivity. }
  destruct (tridiag_solve_correct 1 n (fun _ => AA) (fun _ => BB) (fun _ => CC) (fun _ => RR)) as [X [EX [SX _]]]; [lia|auto|].
  exists (X 0%nat). split.
  - unfold intra_step. fold v. rewrite EM. fold nu. rewrite Eg. cbn [bind]. rewrite Es. cbn [bind]. rewrite EXT. cbn [bind].
    rewrite ER'. cbn [bind]. fold AA BB CC. rewrite ERR. cbn [bind]. rewrite EX. reflexivity.
  - apply (system_is_cn n g Dg Ng Ds dt H2 INC AA BB CC RR f fthresh (X 0%nat)); [exact HM| |apply SX; lia].
    intros i Hi. rewrite HRR by assumption. rewrite (rhs_row_ok n g Dg Ng Ds H2 INC) by assumption. reflexivity.
Qed.

(** ** a small enough time step always gives a solvable system *)
Lemma matrix_row_linear n g Dg Ng Ds i : (i < n)%nat -> exists a b c, forall dt,
  matrix_row n g Dg Ng Ds dt i = Ok (dt * a, 1 + dt * b, dt * c).
Proof.
  intros Hi. unfold matrix_row, to_index. cbv zeta.
  repeat (first [rewrite (rdz_ok _ _ (i + 2)) by lia | rewrite (rdz_ok _ _ (i + 1)) by lia | rewrite (rdz_ok _ _ i) by lia]; cbn [bind]).
  set (x := g i). set (y := g (i + 1)%nat). set (z := g (i + 2)%nat).
  set (d := (z - y) / (y - x)). set (a0 := / ((z - y) * (z - y) * (1 + d))). set (b0 := / (2 * (z - y) * (1 + d))).
  exists (- (a0 * (Ds i * d * d * d - Dg (i + 1)%nat * d * d * (d - 1)) + b0 * Ng i * d * d)),
    (- a0 * (- Ds (i + 1)%nat - Ds i * d * d * d + Dg (i + 1)%nat * (d - 1) * (d * d - 1)) + b0 * Ng (i + 1)%nat * (d * d - 1)),
    (- (a0 * (Ds (i + 1)%nat + Dg (i + 1)%nat * (d - 1)) - b0 * Ng (i + 2)%nat)).
  intros dt. unfold Rdiv. fold a0 b0 d.
  match goal with |- Ok (?a, ?b, ?c) = Ok (?a', ?b', ?c') =>
    replace a with a' by ring; replace b with b' by ring; replace c with c' by ring end. reflexivity.
Qed.

Theorem small_dt_solvable n g Dg Ng Ds : exists dt0, 0 < dt0 /\ forall dt AA BB CC, Rabs dt < dt0 ->
  (forall i, (i < n)%nat -> matrix_row n g Dg Ng Ds dt i = Ok (AA i, BB i, CC i)) ->
  forall i, (i < n)%nat -> pivot AA BB CC i <> 0.
Proof.
  assert (M : forall m, (m <= n)%nat -> exists K, 0 <= K /\ forall i, (i < m)%nat -> forall dt A B C,
    matrix_row n g Dg Ng Ds dt i = Ok (A, B, C) -> Rabs A + Rabs C <= Rabs dt * K /\ 1 - Rabs dt * K <= B).
  { induction m as [|m IH]; intros Hm; [exists 0; split; [lra|intros; lia]|].
    destruct IH as [K [HK H]]; [lia|]. destruct (matrix_row_linear n g Dg Ng Ds m) as [a [b [c E]]]; [lia|].
    pose proof (Rabs_pos a). pose proof (Rabs_pos b). pose proof (Rabs_pos c).
    exists (K + (Rabs a + Rabs b + Rabs c)). split; [lra|]. intros i Hi dt A B C HE. pose proof (Rabs_pos dt) as Pd.
    destruct (Nat.eq_dec i m) as [->|N].
    - rewrite E in HE. injection HE as <- <- <-. rewrite !Rabs_mult.
      assert (- (Rabs dt * Rabs b) <= dt * b).
      { rewrite <- Rabs_mult. pose proof (Rle_abs (- (dt * b))) as Q. rewrite Rabs_Ropp in Q. lra. }
      split; nra.
    - destruct (H i ltac:(lia) dt A B C HE) as [H5 H6]. split; nra. }
  destruct (M n (le_n n)) as [K [HK H]]. exists (/ (2 * (K + 1))).
  assert (PK : 0 < / (2 * (K + 1))) by (apply Rinv_0_lt_compat; lra). split; [exact PK|].
  intros dt AA BB CC Hdt HM. apply strictly_dominant_pivots. intros i Hi.
  destruct (H i Hi dt _ _ _ (HM i Hi)) as [H5 H6].
  assert (Q : Rabs dt * (2 * (K + 1)) < 1).
  { apply (Rmult_lt_compat_r (2 * (K + 1))) in Hdt; [|lra]. rewrite Rinv_l in Hdt by lra. exact Hdt. }
  pose proof (Rabs_pos dt). eapply Rle_lt_trans; [exact H5|]. eapply Rlt_le_trans; [|apply Rle_abs]. nra.
Qed.
