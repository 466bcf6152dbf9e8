(** Proofs about NonUniformInterpolationPoints::get_sampling *)
From Verif Require Import Lib QuadModel QuadProofs OnionModel OnionProofs MshModel MshSpec MshScan.
Open Scope R_scope.

(** bs is a space of B-splines of degree d with break points b 0 < ... < b n *)
Definition spline_space (bs : bsplines) (n : nat) (b : nat -> R) (d : nat) : Prop :=
  bs_degree bs = Z.of_nat d /\ (1 <= n)%nat /\ (forall k, (k < n)%nat -> b k < b (k + 1)%nat) /\
  bs_rmin bs = b 0%nat /\ bs_rmax bs = b n /\
  forall k, (k <= n)%nat -> bs_knot bs (Z.of_nat k) = Ok (b k).

(** the points of the grid: with periodic splines the image of the first one by a period is added *)
Definition grid_points (bs : bsplines) (xs : list R) : list R :=
  if bs_periodic bs then xs ++ [nth 0 xs 0 + (bs_rmax bs - bs_rmin bs)] else xs.
(** points a user may supply: increasing, inside the domain (the upper end belongs to it only without
    periodicity) *)
Definition valid_points (bs : bsplines) (xs : list R) : Prop :=
  xs <> [] /\ increasing xs /\
  forall x, In x xs -> bs_rmin bs <= x /\ (if bs_periodic bs then x < bs_rmax bs else x <= bs_rmax bs).

Lemma valid_grid bs n b d xs :
  spline_space bs n b d -> valid_points bs xs ->
  increasing (grid_points bs xs) /\
  (forall i, (i + 1 < length (grid_points bs xs))%nat -> nth i (grid_points bs xs) 0 < b n) /\
  (forall x, In x (grid_points bs xs) -> b 0%nat <= x).
Proof.
  intros (_ & Hn & Hb & E0 & En & _) (NE & HI & HX). unfold grid_points.
  rewrite E0, En in *.
  destruct (bs_periodic bs).
  - assert (H0 : b 0%nat <= nth 0 xs 0 < b n).
    { apply HX, nth_In. destruct xs; [congruence|cbn; lia]. }
    assert (N : forall j, (j < length xs)%nat -> nth j (xs ++ [nth 0 xs 0 + (b n - b 0%nat)]) 0 = nth j xs 0)
      by (intros; apply app_nth1; assumption).
    assert (NL : nth (length xs) (xs ++ [nth 0 xs 0 + (b n - b 0%nat)]) 0 = nth 0 xs 0 + (b n - b 0%nat))
      by (rewrite app_nth2, Nat.sub_diag by lia; reflexivity).
    split; [|split].
    + intros i j Hij. rewrite app_length in Hij. cbn in Hij.
      destruct (Nat.eq_dec j (length xs)) as [->|Nj].
      * rewrite NL, N by lia. destruct (HX (nth i xs 0)) as [_ H1]; [apply nth_In; lia|]. lra.
      * rewrite !N by lia. apply HI; lia.
    + intros i Hi. rewrite app_length in Hi. cbn in Hi. rewrite N by lia. apply HX, nth_In. lia.
    + intros x Hx. apply in_app_or in Hx. destruct Hx as [Hx|[<-|[]]]; [apply HX, Hx|].
      assert (b 0%nat < b n) by lra. lra.
  - split; [exact HI|]. split.
    + intros i Hi. specialize (HI i (i + 1)%nat ltac:(lia)).
      destruct (HX (nth (i + 1) xs 0)) as [_ H]; [apply nth_In; lia|]. lra.
    + intros x Hx. apply HX, Hx.
Qed.

Lemma get_sampling_unfold u bs n1 n2 xs TOL :
  xs <> [] -> Z.of_nat (length xs) = (bs_nbasis bs - n1 - n2)%Z ->
  get_sampling u bs n1 n2 xs TOL =
  (grid_points bs xs,
   let* _ := check_cells bs (grid_points bs xs) in
   if u then uniform_sampling bs (length xs) (grid_points bs xs) TOL else Ok (NonUniform (grid_points bs xs))).
Proof.
  intros NE L. unfold get_sampling, grid_points. rewrite <- L, Z.eqb_refl, Nat2Z.id. cbn [negb].
  destruct xs as [|x xs]; [congruence|]. destruct (bs_periodic bs); reflexivity.
Qed.
Lemma wrong_length u bs n1 n2 xs TOL :
  Z.of_nat (length xs) <> (bs_nbasis bs - n1 - n2)%Z -> get_sampling u bs n1 n2 xs TOL = (xs, Throw).
Proof.
  intros L. unfold get_sampling. replace (_ =? _)%Z with false by lia. reflexivity.
Qed.

Lemma nonuniform_sampling bs n b d n1 n2 xs TOL :
  spline_space bs n b d -> valid_points bs xs ->
  Z.of_nat (length xs) = (bs_nbasis bs - n1 - n2)%Z ->
  (forall j, (2 <= j <= n - 1)%nat -> exists x, In x xs /\ b (j - 1)%nat <= x < b j) ->
  ((forall j, (1 <= j <= n)%nat -> (points_in_cell b j (grid_points bs xs) <= d + 1)%nat) ->
   get_sampling false bs n1 n2 xs TOL = (grid_points bs xs, Ok (NonUniform (grid_points bs xs)))) /\
  ((exists j, (1 <= j <= n)%nat /\ (d + 1 < points_in_cell b j (grid_points bs xs))%nat) ->
   forall u, get_sampling u bs n1 n2 xs TOL = (grid_points bs xs, Throw)).
Proof.
  intros SP V L HG. destruct (valid_grid bs n b d xs SP V) as (HI & HN & H0).
  destruct SP as (Hd & Hn & Hb & E0 & En & Hk). destruct V as (NE & _ & _).
  destruct (check_exact bs n b d Hd Hn Hb Hk (grid_points bs xs) HI HN H0) as [A B].
  { intros j Hj. destruct (HG j Hj) as (x & Hx & Hx'). exists x. split; [|exact Hx'].
    unfold grid_points. destruct (bs_periodic bs); [apply in_or_app; left|]; exact Hx. }
  split.
  - intros H. rewrite get_sampling_unfold by assumption. rewrite (A H). reflexivity.
  - intros H u. rewrite get_sampling_unfold by assumption. rewrite (B H). reflexivity.
Qed.

(** whatever the points: no undefined behaviour, and an error only for an overconstrained cell *)
Lemma nonuniform_sound bs n b d n1 n2 xs TOL :
  spline_space bs n b d -> valid_points bs xs ->
  Z.of_nat (length xs) = (bs_nbasis bs - n1 - n2)%Z ->
  get_sampling false bs n1 n2 xs TOL = (grid_points bs xs, Ok (NonUniform (grid_points bs xs))) \/
  (get_sampling false bs n1 n2 xs TOL = (grid_points bs xs, Throw) /\
   exists j, (1 <= j <= n)%nat /\ (d + 1 < points_in_cell b j (grid_points bs xs))%nat).
Proof.
  intros SP V L. destruct (valid_grid bs n b d xs SP V) as (HI & HN & H0).
  destruct SP as (Hd & Hn & Hb & E0 & En & Hk). destruct V as (NE & _ & _).
  rewrite get_sampling_unfold by assumption.
  destruct (check_sound bs n b d Hd Hn Hb Hk (grid_points bs xs) HI HN H0) as [->|[-> H]].
  - left; reflexivity.
  - right; split; [reflexivity|exact H].
Qed.

(** ** The points of the sampling *)
Lemma grid_coordinate bs xs i :
  (i < length xs)%nat -> coordinate (NonUniform (grid_points bs xs)) i = Ok (nth i xs 0).
Proof.
  intros Hi. unfold coordinate, grid_points, rd. replace (Z.of_nat i <? 0)%Z with false by lia. rewrite Nat2Z.id.
  destruct (bs_periodic bs); [rewrite nth_error_app1 by exact Hi|]; rewrite (nth_error_nth' xs 0 Hi); reflexivity.
Qed.

(** ** Uniform samplings *)
Lemma uniform_exact bs npoints points TOL :
  (2 <= length points)%nat -> (npoints <= length points)%nat ->
  let step := (bs_rmax bs - bs_rmin bs) / INR (length points - 1) in
  ((forall i, (i < npoints)%nat -> Rabs (nth 0 points 0 + INR i * step - nth i points 0) < TOL) ->
   uniform_sampling bs npoints points TOL = Ok (Uniform (nth 0 points 0) step)) /\
  ((exists i, (i < npoints)%nat /\ TOL <= Rabs (nth 0 points 0 + INR i * step - nth i points 0)) ->
   uniform_sampling bs npoints points TOL = Throw).
Proof.
  intros H2 HN step. unfold uniform_sampling. destruct points as [|p ps]; [cbn in H2; lia|].
  replace (length (p :: ps) =? 1)%nat with false by (symmetry; apply Nat.eqb_neq; lia).
  fold step. set (pts := p :: ps) in *. change (nth 0 pts 0) with p.
  destruct (for_res_inv (fun k (acc : bool) =>
      acc = true <-> forall i, (i < k)%nat -> Rabs (p + INR i * step - nth i pts 0) < TOL) npoints
      (fun i acc => let* c := coordinate (Uniform p step) i in let* q := rd pts (Z.of_nat i) in
                    Ok (acc && Rltb (Rabs (c - q)) TOL)%bool) true) as (acc & E & HA).
  - split; [intros _ i Hi; lia|reflexivity].
  - intros k acc Hk HA. cbn [coordinate bind].
    assert (R1 : rd pts (Z.of_nat k) = Ok (nth k pts 0)).
    { unfold rd. replace (Z.of_nat k <? 0)%Z with false by lia. rewrite Nat2Z.id.
      rewrite (nth_error_nth' pts 0) by lia. reflexivity. }
    rewrite R1. cbn [bind]. eexists; split; [reflexivity|].
    rewrite andb_true_iff, HA. split.
    + intros [A B] i Hi. apply Rltb_true in B. destruct (Nat.eq_dec i k) as [->|]; [exact B|apply A; lia].
    + intros A. split; [intros i Hi; apply A; lia|]. 
      destruct (Rltb _ _) eqn:R; [reflexivity|]. apply Rltb_false in R. specialize (A k ltac:(lia)). lra.
  - rewrite E. cbn [bind]. split.
    + intros H. rewrite (proj2 HA H). reflexivity.
    + intros (i & Hi & HT). destruct acc; [|reflexivity].
      pose proof (proj1 HA eq_refl i Hi). lra.
Qed.

Lemma get_uniform bs n b d n1 n2 xs TOL :
  spline_space bs n b d -> valid_points bs xs ->
  Z.of_nat (length xs) = (bs_nbasis bs - n1 - n2)%Z -> (2 <= length (grid_points bs xs))%nat ->
  let step := (bs_rmax bs - bs_rmin bs) / INR (length (grid_points bs xs) - 1) in
  forall s,
  snd (get_sampling true bs n1 n2 xs TOL) = Ok s <->
  s = Uniform (nth 0 xs 0) step /\ check_cells bs (grid_points bs xs) = Ok tt /\
  forall i, (i < length xs)%nat -> Rabs (nth 0 xs 0 + INR i * step - nth i xs 0) < TOL.
Proof.
  intros SP V L H2 step s. pose proof V as (NE & _ & _).
  rewrite get_sampling_unfold by assumption. cbn [snd].
  assert (HL : (length xs <= length (grid_points bs xs))%nat).
  { unfold grid_points. destruct (bs_periodic bs); [rewrite app_length; cbn; lia|lia]. }
  assert (HP : forall i, (i < length xs)%nat -> nth i (grid_points bs xs) 0 = nth i xs 0).
  { intros i Hi. unfold grid_points. destruct (bs_periodic bs); [apply app_nth1; lia|reflexivity]. }
  assert (HZ : (0 < length xs)%nat) by (destruct xs; [congruence|cbn; lia]).
  destruct (uniform_exact bs (length xs) (grid_points bs xs) TOL H2 HL) as [A B]. fold step in A, B.
  rewrite HP in A, B by exact HZ.
  destruct (check_cells bs (grid_points bs xs)) as [[]| | |]; cbn [bind];
    try (split; [discriminate|intros (_ & H & _); discriminate]).
  destruct (Classical_Prop.classic (forall i, (i < length xs)%nat -> Rabs (nth 0 xs 0 + INR i * step - nth i xs 0) < TOL))
    as [Q|Q].
  - rewrite A by (intros i Hi; rewrite HP by exact Hi; auto). split.
    + intros H; injection H as <-. auto.
    + intros (-> & _). reflexivity.
  - rewrite B.
    + split; [discriminate|]. intros (_ & _ & H). contradiction.
    + apply Classical_Pred_Type.not_all_ex_not in Q. destruct Q as (i & Q).
      exists i. apply Classical_Prop.imply_to_and in Q. destruct Q as [Hi Q]. split; [exact Hi|].
      rewrite HP by exact Hi. lra.
Qed.

(** ** The break points themselves are accepted *)
Lemma covered b k l (c : list R) :
  NoDup l -> (forall x, In x l -> in_cell b k x = true -> In x c) -> (points_in_cell b k l <= length c)%nat.
Proof.
  intros ND H. unfold points_in_cell. apply NoDup_incl_length; [apply NoDup_filter; exact ND|].
  intros x Hx. apply filter_In in Hx. destruct Hx. auto.
Qed.
Lemma increasing_nodup l : increasing l -> NoDup l.
Proof.
  intros H. apply (NoDup_nth l 0). intros i j Hi Hj E.
  destruct (lt_eq_lt_dec i j) as [[L|Q]|G]; [|exact Q|].
  - specialize (H i j ltac:(lia)). lra.
  - specialize (H j i ltac:(lia)). lra.
Qed.

Lemma break_points_increasing n b m : (m <= n + 1)%nat -> (forall k, (k < n)%nat -> b k < b (k + 1)%nat) ->
  forall i j, (i < j < m)%nat -> b i < b j.
Proof.
  intros Hm Hb i j [Hij Hj]. induction Hij as [|j Hij IH].
  - specialize (Hb i ltac:(lia)). replace (i + 1)%nat with (S i) in Hb by lia. exact Hb.
  - specialize (Hb j ltac:(lia)). replace (j + 1)%nat with (S j) in Hb by lia.
    specialize (IH ltac:(lia)). lra.
Qed.

Lemma accepts_break_points bs n b d n1 n2 TOL :
  spline_space bs n b d -> (1 <= d)%nat ->
  let xs := map b (seq 0 (if bs_periodic bs then n else n + 1)) in
  Z.of_nat (length xs) = (bs_nbasis bs - n1 - n2)%Z ->
  get_sampling false bs n1 n2 xs TOL = (map b (seq 0 (n + 1)), Ok (NonUniform (map b (seq 0 (n + 1))))).
Proof.
  intros SP Hd xs L. pose proof SP as (_ & Hn & Hb & E0 & En & _).
  set (m := if bs_periodic bs then n else (n + 1)%nat) in *.
  assert (Hm : (n <= m <= n + 1)%nat) by (unfold m; destruct (bs_periodic bs); lia).
  assert (NX : forall i, (i < m)%nat -> nth i xs 0 = b i).
  { intros i Hi. unfold xs. rewrite (nth_indep (map b (seq 0 m)) 0 (b 0%nat)) by (rewrite map_length, seq_length; lia).
    rewrite map_nth, seq_nth by lia. reflexivity. }
  assert (LX : length xs = m) by (unfold xs; rewrite map_length, seq_length; reflexivity).
  assert (GP : grid_points bs xs = map b (seq 0 (n + 1))).
  { unfold grid_points. rewrite NX by lia. rewrite E0, En. unfold xs, m. destruct (bs_periodic bs); [|reflexivity].
    rewrite seq_app, map_app. cbn. f_equal. f_equal. ring. }
  assert (V : valid_points bs xs).
  { split; [intros Q; rewrite Q in LX; cbn in LX; lia|]. split.
    - intros i j Hij. rewrite LX in Hij. rewrite !NX by lia.
      apply (break_points_increasing n b m); [lia|exact Hb|lia].
    - intros x Hx. unfold xs in Hx. apply in_map_iff in Hx. destruct Hx as (k & <- & Hk). apply in_seq in Hk.
      rewrite E0, En. split.
      + destruct (Nat.eq_dec k 0) as [->|]; [lra|]. left. apply (break_points_increasing n b (n + 1)); [lia|exact Hb|lia].
      + unfold m in Hk. destruct (bs_periodic bs).
        * apply (break_points_increasing n b (n + 1)); [lia|exact Hb|lia].
        * destruct (Nat.eq_dec k n) as [->|]; [lra|]. left.
          apply (break_points_increasing n b (n + 1)); [lia|exact Hb|lia]. }
  rewrite <- GP. apply (nonuniform_sampling bs n b d n1 n2 xs TOL SP V L).
  - intros j Hj. exists (b (j - 1)%nat). split.
    + rewrite <- (NX (j - 1)%nat) by lia. apply nth_In. lia.
    + split; [lra|]. apply (break_points_increasing n b (n + 1)); [lia|exact Hb|lia].
  - intros j Hj. apply Nat.le_trans with (2%nat); [|lia].
    apply (covered b j (grid_points bs xs) [b (j - 1)%nat; b j]).
    + apply increasing_nodup. apply (valid_grid bs n b d xs SP V).
    + rewrite GP. intros x Hx HC. apply in_map_iff in Hx. destruct Hx as (k & <- & Hk). apply in_seq in Hk.
      apply in_cell_true in HC.
      destruct (lt_eq_lt_dec k (j - 1)) as [[Lk| ->]|Gk]; [|left; reflexivity|].
      * pose proof (break_points_increasing n b (n + 1) ltac:(lia) Hb k (j - 1)%nat ltac:(lia)). lra.
      * destruct (lt_eq_lt_dec k j) as [[Lk'| ->]|Gk']; [lia|right; left; reflexivity|].
        pose proof (break_points_increasing n b (n + 1) ltac:(lia) Hb j k ltac:(lia)). lra.
Qed.

(** ** The vector of the caller *)
Lemma argument_grows u bs n1 n2 xs TOL s :
  bs_periodic bs = true -> get_sampling u bs n1 n2 xs TOL = (fst (get_sampling u bs n1 n2 xs TOL), Ok s) ->
  xs <> [] ->
  fst (get_sampling u bs n1 n2 xs TOL) = xs ++ [nth 0 xs 0 + (bs_rmax bs - bs_rmin bs)] /\
  forall u' TOL', get_sampling u' bs n1 n2 (fst (get_sampling u bs n1 n2 xs TOL)) TOL' =
    (fst (get_sampling u bs n1 n2 xs TOL), Throw).
Proof.
  intros HP E NE.
  assert (L : Z.of_nat (length xs) = (bs_nbasis bs - n1 - n2)%Z).
  { destruct (Z.eq_dec (Z.of_nat (length xs)) (bs_nbasis bs - n1 - n2)) as [Q|Q]; [exact Q|].
    rewrite wrong_length in E by exact Q. discriminate. }
  assert (F : fst (get_sampling u bs n1 n2 xs TOL) = xs ++ [nth 0 xs 0 + (bs_rmax bs - bs_rmin bs)]).
  { rewrite get_sampling_unfold by assumption. cbn [fst]. unfold grid_points. rewrite HP. reflexivity. }
  split; [exact F|]. intros u' TOL'. rewrite F. apply wrong_length. rewrite app_length. cbn. lia.
Qed.

(** ** Examples: integer break points 0, 1, ..., n *)
Definition integer_splines (n d : nat) (periodic : bool) (nbasis : Z) : bsplines :=
  {| bs_degree := Z.of_nat d; bs_nbasis := nbasis; bs_periodic := periodic; bs_rmin := 0; bs_rmax := INR n;
     bs_knot := fun k => Ok (IZR k) |}.
Lemma integer_space n d p nb : (1 <= n)%nat -> spline_space (integer_splines n d p nb) n INR d.
Proof.
  intros Hn. split; [reflexivity|]. split; [exact Hn|].
  split; [intros k _; rewrite plus_INR; cbn [INR]; lra|]. split; [reflexivity|]. split; [reflexivity|].
  intros k _. cbn. rewrite INR_IZR_INZ. reflexivity.
Qed.

Lemma scan_below bs m k c p r : bs_knot bs k = Ok c -> p < c -> scan bs m k (p :: r) = scan bs (m + 1) k r.
Proof.
  intros E H. cbn [scan]. rewrite E. cbn [bind]. destruct (Req_EM_T p c) as [Q|_]; [lra|].
  replace (Rltb c p) with false by (symmetry; apply Rltb_false; lra). reflexivity.
Qed.
Lemma scan_above bs m k c p r : bs_knot bs k = Ok c -> c < p -> check_n_points_in_cell bs m = Ok tt ->
  scan bs m k (p :: r) = scan bs 1 (k + 1) r.
Proof.
  intros E H C. cbn [scan]. rewrite E. cbn [bind]. destruct (Req_EM_T p c) as [Q|_]; [lra|].
  replace (Rltb c p) with true by (symmetry; apply Rltb_true; lra). rewrite C. reflexivity.
Qed.

(** four of the five points are in the last cell, degree 1: not detected *)
Lemma crowded_cell_accepted :
  let bs := integer_splines 4 1 false 5 in
  let xs := [1/2; 32/10; 34/10; 36/10; 38/10] in
  spline_space bs 4 INR 1 /\ valid_points bs xs /\
  points_in_cell INR 4 (grid_points bs xs) = 4%nat /\
  get_sampling false bs 0 0 xs 2e-14 = (xs, Ok (NonUniform xs)).
Proof.
  intros bs xs. split; [apply integer_space; lia|].
  assert (V : valid_points bs xs).
  { split; [discriminate|]. split.
    - intros i j Hij. cbn [length xs] in Hij. unfold xs.
      destruct i as [|[|[|[|i]]]]; destruct j as [|[|[|[|[|j]]]]]; try lia; cbn; lra.
    - intros x Hx. unfold xs, bs in *. cbn [bs_rmin bs_rmax bs_periodic integer_splines INR]. cbn in Hx. lra. }
  split; [exact V|]. split.
  - unfold grid_points, bs. cbn [bs_periodic integer_splines]. unfold xs, points_in_cell. cbn [filter].
    assert (HF : in_cell INR 4 (1/2) = false) by (apply in_cell_false; left; cbn; lra). rewrite HF.
    assert (HT : forall x, 3 <= x <= 4 -> in_cell INR 4 x = true) by (intros x Hx; apply in_cell_true; cbn; lra).
    rewrite !HT by lra. reflexivity.
  - rewrite get_sampling_unfold by (try discriminate; reflexivity).
    unfold grid_points. cbn [bs_periodic integer_splines bs]. unfold check_cells, xs, bs.
    rewrite (scan_below _ 0 1 1) by (try reflexivity; lra).
    rewrite (scan_above _ (0 + 1) 1 1) by (try reflexivity; lra).
    rewrite (scan_above _ 1 (1 + 1) 2) by (try reflexivity; lra).
    rewrite (scan_above _ 1 (1 + 1 + 1) 3) by (try reflexivity; lra).
    rewrite (scan_below _ 1 (1 + 1 + 1 + 1) 4) by (try reflexivity; lra).
    reflexivity.
Qed.

(** equally spaced points that do not reach the ends of the domain are refused by the uniform branch *)
Lemma inner_uniform_refused :
  let bs := integer_splines 4 1 false 5 in
  let xs := [1/10; 1; 19/10; 28/10; 37/10] in
  spline_space bs 4 INR 1 /\ valid_points bs xs /\
  (forall i, (i < 4)%nat -> nth (i + 1) xs 0 - nth i xs 0 = 9/10) /\
  snd (get_sampling false bs 0 0 xs 2e-14) = Ok (NonUniform xs) /\
  snd (get_sampling true bs 0 0 xs 2e-14) = Throw.
Proof.
  intros bs xs. split; [apply integer_space; lia|].
  assert (V : valid_points bs xs).
  { split; [discriminate|]. split.
    - intros i j Hij. cbn [length xs] in Hij. unfold xs.
      destruct i as [|[|[|[|i]]]]; destruct j as [|[|[|[|[|j]]]]]; try lia; cbn; lra.
    - intros x Hx. unfold xs, bs in *. cbn [bs_rmin bs_rmax bs_periodic integer_splines INR]. cbn in Hx. lra. }
  split; [exact V|]. split; [|].
  - intros i Hi. unfold xs. destruct i as [|[|[|[|i]]]]; try lia; cbn; lra.
  - assert (C : check_cells bs xs = Ok tt).
    { assert (Q : forall j, (1 <= j <= 4)%nat -> (points_in_cell INR j xs <= 1 + 1)%nat).
      { intros j Hj.
        assert (j = 1 \/ j = 2 \/ j = 3 \/ j = 4)%nat as [->| [->| [->| ->]]] by lia;
          unfold points_in_cell, xs; cbn [filter];
          repeat match goal with |- context [in_cell ?b ?k ?x] =>
            first [replace (in_cell b k x) with true by (symmetry; apply in_cell_true; cbn; lra)
                  |replace (in_cell b k x) with false by (symmetry; apply in_cell_false; cbn; lra)] end;
          cbn [length]; lia. }
      destruct (integer_space 4 1 false 5 ltac:(lia)) as (Hd & Hn & Hb & _ & _ & Hk).
      destruct (valid_grid bs 4 INR 1 xs (integer_space 4 1 false 5 ltac:(lia)) V) as (HI & HN & H0).
      apply (check_exact bs 4 INR 1 Hd Hn Hb Hk xs HI HN H0); [|exact Q].
      intros j Hj. assert (j = 2 \/ j = 3)%nat as [->| ->] by lia.
      - exists 1. split; [unfold xs; cbn; tauto|]. cbn; lra.
      - exists (28/10). split; [unfold xs; cbn; tauto|]. cbn; lra. }
    split.
    + rewrite get_sampling_unfold by (try discriminate; reflexivity).
      unfold grid_points. cbn [bs_periodic integer_splines bs snd]. fold bs. rewrite C. reflexivity.
    + rewrite get_sampling_unfold by (try discriminate; reflexivity).
      unfold grid_points. cbn [bs_periodic integer_splines bs snd]. fold bs. rewrite C. cbn [bind].
      apply (uniform_exact bs 5 xs 2e-14); [cbn; lia|cbn; lia|].
      exists 4%nat. split; [lia|]. unfold xs, bs. cbn [bs_rmax bs_rmin integer_splines length nth Nat.sub INR].
      rewrite Rabs_pos_eq; lra.
Qed.
