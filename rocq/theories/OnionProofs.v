(** Proofs of the properties of the onion geometry (C54). *)
From Verif Require Import OnionModel OnionSpec RestrictProofs.
From Coq Require Import ZifyBool.
Open Scope R_scope.

Lemma rd_nthd {A} (l : list A) (d : A) i k : k = Z.of_nat i -> (i < length l)%nat -> rd l k = Ok (nth i l d).
Proof.
  intros -> H. unfold rd. replace (Z.of_nat i <? 0)%Z with false by lia.
  rewrite Nat2Z.id, (nth_error_nth' l d) by auto. reflexivity.
Qed.
Lemma rd_nth_some {A} (l : list A) k x : nth_error l k = Some x -> rd l (Z.of_nat k) = Ok x.
Proof. intros H. unfold rd. replace (Z.of_nat k <? 0)%Z with false by lia. rewrite Nat2Z.id, H. reflexivity. Qed.
Lemma Rltb_true x y : Rltb x y = true <-> x < y.
Proof. unfold Rltb. destruct (Rlt_dec x y); split; intros; auto; try discriminate; contradiction. Qed.
Lemma Rltb_false x y : Rltb x y = false <-> y <= x.
Proof. unfold Rltb. destruct (Rlt_dec x y); split; intros; auto; try discriminate; lra. Qed.
Lemma Rleb_true x y : Rleb x y = true <-> x <= y.
Proof. unfold Rleb. destruct (Rle_dec x y); split; intros; auto; try discriminate; contradiction. Qed.
Lemma Rleb_false x y : Rleb x y = false <-> y < x.
Proof. unfold Rleb. destruct (Rle_dec x y); split; intros; auto; try discriminate; lra. Qed.

Lemma replace_at {A} (h : list A) x y t : replace_nth (h ++ x :: t) (length h) y = h ++ y :: t.
Proof. induction h as [|a h IH]; simpl; [reflexivity|now rewrite IH]. Qed.
Lemma wr_at {A} (h : list A) x y t i : i = Z.of_nat (length h) -> wr (h ++ x :: t) i y = Ok (h ++ y :: t).
Proof.
  intros ->. rewrite wr_ok by (rewrite app_length; simpl; lia). rewrite Nat2Z.id, replace_at. reflexivity.
Qed.

(** ** the radii *)
Lemma map_nth_d (f : opatch -> R) ps i d : (i < length ps)%nat -> nth i (map f ps) 0 = f (nth i ps d).
Proof. intros H. rewrite (nth_indep (map f ps) 0 (f d)) by (rewrite map_length; auto). apply map_nth. Qed.

Lemma firstn_S_nth {A} (l : list A) i d : (i < length l)%nat -> firstn (S i) l = firstn i l ++ [nth i l d].
Proof.
  revert i; induction l as [|a l IH]; intros [|i] H; simpl in *; try lia; auto.
  rewrite <- IH by lia. reflexivity.
Qed.

Definition d0 : opatch := OPatch 0 0 (Basis false 0 0 0 0 (fun _ _ => None) (fun _ => 0)) (Basis false 0 0 0 0 (fun _ _ => None) (fun _ => 0)).

Lemma radii_loop ps (n := length ps) : (0 < n)%nat ->
  forall m, (m <= n - 1)%nat ->
  let body := (fun i h =>
    let* a := rd (map o_rmin ps) (Z.of_nat i + 1) in
    let* b := rd (map o_rmax ps) (Z.of_nat i) in
    if Rlt_dec (/ 10 ^ 14) (Rabs (a - b)) then Throw else wr h (Z.of_nat i + 1) b) in
  ((forall i, (i < m)%nat -> Rabs (o_rmin (nth (S i) ps d0) - o_rmax (nth i ps d0)) <= / 10 ^ 14) /\
   for_res m body (first_radius ps :: repeat 0 n) =
   Ok (first_radius ps :: firstn m (map o_rmax ps) ++ repeat 0 (n - m))) \/
  ((exists i, (i < m)%nat /\ / 10 ^ 14 < Rabs (o_rmin (nth (S i) ps d0) - o_rmax (nth i ps d0))) /\
   for_res m body (first_radius ps :: repeat 0 n) = Throw).
Proof.
  intros Hn m. induction m as [|m IH]; intros Hm body.
  - left. split; [intros; lia|]. simpl. rewrite Nat.sub_0_r. reflexivity.
  - specialize (IH ltac:(lia)). cbv zeta in IH. fold body in IH. cbn [for_res].
    destruct IH as [[A E]|[[i [Hi G]] E]]; rewrite E; cbn [bind].
    + unfold body at 1 2.
      rewrite (rd_nthd _ 0 (S m)) by (rewrite ?map_length; lia).
      rewrite (rd_nthd _ 0 m) by (rewrite ?map_length; lia).
      cbn [bind]. rewrite !(map_nth_d _ ps _ d0) by (fold n; lia).
      destruct (Rlt_dec _ _) as [L|L].
      * right. split; [|reflexivity]. exists m. split; [lia|]. exact L.
      * left. split.
        { intros i Hi. destruct (Nat.eq_dec i m) as [->|]; [lra|]. apply A; lia. }
        rewrite (firstn_S_nth _ m 0) by (rewrite map_length; fold n; lia).
        rewrite (map_nth_d _ ps _ d0) by (fold n; lia).
        replace (n - m)%nat with (S (n - S m)) by lia. cbn [repeat].
        change (first_radius ps :: firstn m (map o_rmax ps) ++ 0 :: repeat 0 (n - S m))
          with ((first_radius ps :: firstn m (map o_rmax ps)) ++ 0 :: repeat 0 (n - S m)).
        rewrite wr_at; [cbn [app]; rewrite <- app_assoc; reflexivity|].
        cbn [length]. rewrite firstn_length, map_length. fold n. lia.
    + right. split; [|reflexivity]. exists i. split; [lia|auto].
Qed.

Lemma nearly_rings_nth ps : nearly_rings ps <->
  (forall i, (i < length ps - 1)%nat -> Rabs (o_rmin (nth (S i) ps d0) - o_rmax (nth i ps d0)) <= / 10 ^ 14).
Proof.
  split.
  - intros H i Hi. apply (H i); apply nth_error_nth'; lia.
  - intros H i p q Hp Hq. specialize (H i).
    assert (S i < length ps)%nat by (apply nth_error_Some; congruence).
    rewrite (nth_error_nth ps i d0 Hp), (nth_error_nth ps (S i) d0 Hq) in H. apply H; lia.
Qed.

Lemma radii_ok ps : ps <> [] ->
  (nearly_rings ps /\ set_and_check_radii ps = Ok (first_radius ps :: map o_rmax ps)) \/
  (~ nearly_rings ps /\ set_and_check_radii ps = Throw).
Proof.
  intros Hne. set (n := length ps). assert (Hn : (0 < n)%nat) by (destruct ps; [congruence|simpl in n; subst n; lia]).
  unfold set_and_check_radii. fold n.
  assert (E0 : rd (map o_rmin ps) 0 = Ok (first_radius ps)) by (destruct ps; [congruence|reflexivity]).
  rewrite E0. cbn [bind]. replace (n + 1)%nat with (S n) by lia. cbn [repeat].
  change (0 :: repeat 0 n) with ([] ++ 0 :: repeat 0 n). rewrite wr_at by reflexivity. cbn [app bind].
  destruct (radii_loop ps Hn (n - 1) ltac:(fold n; lia)) as [[A E]|[[i [Hi G]] E]]; cbv zeta in E; fold n in E; rewrite E; cbn [bind].
  - left. split; [apply nearly_rings_nth; exact A|].
    replace (n - (n - 1))%nat with 1%nat by lia. cbn [repeat].
    rewrite (rd_nthd _ 0 (n - 1)) by (rewrite ?map_length; fold n; lia). cbn [bind].
    change (first_radius ps :: firstn (n - 1) (map o_rmax ps) ++ [0])
      with ((first_radius ps :: firstn (n - 1) (map o_rmax ps)) ++ 0 :: []).
    rewrite wr_at by (cbn [length]; rewrite firstn_length, map_length; fold n; lia).
    cbn [app]. f_equal. f_equal.
    rewrite <- (firstn_S_nth _ (n - 1) 0) by (rewrite map_length; fold n; lia).
    replace (S (n - 1)) with n by lia. apply firstn_all2. rewrite map_length; fold n; lia.
  - right. split; [|reflexivity]. intros C. rewrite nearly_rings_nth in C. specialize (C i ltac:(fold n; lia)). lra.
Qed.

(** ** the dichotomy *)
Section Dichotomy.
Variable radii : list R.
Let rad i := nth i radii 0.
Variable n : nat.
Hypothesis Hlen : length radii = S n.
Hypothesis Hinc : forall i j, (i < j <= n)%nat -> rad i < rad j.

Lemma rad_le i j : (i <= j <= n)%nat -> rad i <= rad j.
Proof. intros H. destruct (Nat.eq_dec i j) as [->|]; [lra|]. left. apply Hinc; lia. Qed.

Lemma loop_found fuel r : forall lo hi, (hi - lo + 2 <= Z.of_nat fuel)%Z -> (0 <= lo)%Z -> (lo <= hi + 1)%Z -> (hi < Z.of_nat n)%Z ->
  rad (Z.to_nat lo) <= r < rad (Z.to_nat (hi + 1)) ->
  exists k, (k < n)%nat /\ locate_loop fuel radii r lo hi = Ok (Some (Some (Z.of_nat k))) /\ rad k <= r < rad (S k).
Proof.
  induction fuel as [|fuel IH]; intros lo hi Hf Hlo Hlh Hhi Hr.
  - exfalso. lia.
  - cbn [locate_loop].
    assert (lo <= hi)%Z.
    { destruct (Z_le_gt_dec lo hi); auto. exfalso. replace (hi + 1)%Z with lo in Hr by lia. lra. }
    replace (hi >=? lo)%Z with true by lia.
    set (mid := Z.quot (lo + hi) 2).
    assert (Hm : (lo <= mid <= hi)%Z).
    { unfold mid. rewrite Z.quot_div_nonneg by lia. split; [apply Z.div_le_lower_bound; lia|apply Z.div_le_upper_bound; lia]. }
    rewrite (rd_nthd radii 0 (Z.to_nat mid)) by lia.
    rewrite (rd_nthd radii 0 (S (Z.to_nat mid))) by lia. cbn [bind]. fold (rad (Z.to_nat mid)) (rad (S (Z.to_nat mid))).
    destruct (Rleb (rad (Z.to_nat mid)) r && Rltb r (rad (S (Z.to_nat mid))))%bool eqn:B.
    + apply andb_prop in B as [B1 B2]. apply Rleb_true in B1. apply Rltb_true in B2.
      exists (Z.to_nat mid). split; [lia|]. split; [repeat f_equal; lia|lra].
    + destruct (Rltb r (rad (Z.to_nat mid))) eqn:B1.
      * apply Rltb_true in B1. apply IH; try lia. replace (mid - 1 + 1)%Z with mid by lia. lra.
      * apply Rltb_false in B1.
        assert (B2 : rad (S (Z.to_nat mid)) <= r).
        { apply Bool.andb_false_iff in B as [B|B]; [apply Rleb_false in B; lra|apply Rltb_false in B; lra]. }
        rewrite (proj2 (Rleb_true _ _) B2).
        apply IH; try lia. replace (Z.to_nat (mid + 1)) with (S (Z.to_nat mid)) by lia. lra.
Qed.

Lemma loop_end fuel : forall lo, (Z.of_nat n - 1 - lo + 2 <= Z.of_nat fuel)%Z -> (0 <= lo <= Z.of_nat n)%Z ->
  locate_loop fuel radii (rad n) lo (Z.of_nat n - 1) = Ok (Some None).
Proof.
  induction fuel as [|fuel IH]; intros lo Hf Hlo; [lia|].
  cbn [locate_loop]. destruct (Z_le_gt_dec lo (Z.of_nat n - 1)) as [L|L].
  - replace (Z.of_nat n - 1 >=? lo)%Z with true by lia.
    set (mid := Z.quot (lo + (Z.of_nat n - 1)) 2).
    assert (Hm : (lo <= mid <= Z.of_nat n - 1)%Z).
    { unfold mid. rewrite Z.quot_div_nonneg by lia. split; [apply Z.div_le_lower_bound; lia|apply Z.div_le_upper_bound; lia]. }
    rewrite (rd_nthd radii 0 (Z.to_nat mid)) by lia.
    rewrite (rd_nthd radii 0 (S (Z.to_nat mid))) by lia. cbn [bind]. fold (rad (Z.to_nat mid)) (rad (S (Z.to_nat mid))).
    pose proof (rad_le (S (Z.to_nat mid)) n ltac:(lia)) as B2. pose proof (rad_le (Z.to_nat mid) n ltac:(lia)) as B1.
    rewrite (proj2 (Rltb_false _ _) B2), Bool.andb_false_r, (proj2 (Rltb_false _ _) B1), (proj2 (Rleb_true _ _) B2).
    apply IH; lia.
  - replace (Z.of_nat n - 1 >=? lo)%Z with false by lia. reflexivity.
Qed.

Lemma locate_cases r : (0 < n)%nat ->
  (rad n < r /\ locate (S n) radii n r = Ok outside_rmax_domain) \/
  (r < rad 0 /\ r <= rad n /\ locate (S n) radii n r = Ok outside_rmin_domain) \/
  (exists k, (k < n)%nat /\ locate (S n) radii n r = Ok (Z.of_nat k) /\ rad k <= r /\
     (r < rad (S k) \/ (r = rad (S k) /\ S k = n))).
Proof.
  intros Hn. unfold locate.
  rewrite (rd_nthd radii 0 0) by lia. rewrite (rd_nthd radii 0 n) by lia. cbn [bind].
  fold (rad 0) (rad n).
  destruct (Rltb (rad n) r) eqn:B1; [left; apply Rltb_true in B1; auto|]. apply Rltb_false in B1.
  destruct (Rltb r (rad 0)) eqn:B2; [right; left; apply Rltb_true in B2; auto|]. apply Rltb_false in B2.
  right; right.
  destruct (Req_dec r (rad n)) as [->|Hne].
  - rewrite loop_end by lia. cbn [bind]. rewrite (rd_nthd radii 0 n) by lia. cbn [bind]. fold (rad n).
    destruct (Req_EM_T (rad n) (rad n)); [|congruence].
    exists (n - 1)%nat. split; [lia|]. split; [f_equal; lia|]. split; [apply rad_le; lia|].
    right. split; [f_equal|]; lia.
  - destruct (loop_found (S n) r 0 (Z.of_nat n - 1)) as [k [Hk [E HR]]]; try lia.
    { replace (Z.to_nat (Z.of_nat n - 1 + 1)) with n by lia. change (Z.to_nat 0) with 0%nat. lra. }
    rewrite E. cbn [bind]. exists k. split; [lia|]. split; [reflexivity|]. split; lra.
Qed.
End Dichotomy.

(** ** the locator on the patches *)

Lemma rad_S ps k p : nth_error ps k = Some p -> nth (S k) (first_radius ps :: map o_rmax ps) 0 = o_rmax p.
Proof.
  intros H. cbn [nth]. assert (k < length ps)%nat by (apply nth_error_Some; congruence).
  rewrite (map_nth_d _ ps k d0) by auto. f_equal. apply nth_error_nth; auto.
Qed.

Lemma tol_pos : 0 < / 10 ^ 14.
Proof. apply Rinv_0_lt_compat. apply pow_lt. lra. Qed.

Lemma radii_inc ps : nearly_rings ps -> wide ps -> ps <> [] ->
  forall i j, (i < j <= length ps)%nat ->
  nth i (first_radius ps :: map o_rmax ps) 0 < nth j (first_radius ps :: map o_rmax ps) 0.
Proof.
  intros HR HW Hne. pose proof tol_pos as T.
  assert (Step : forall i, (i < length ps)%nat ->
    nth i (first_radius ps :: map o_rmax ps) 0 < nth (S i) (first_radius ps :: map o_rmax ps) 0).
  { intros i Hi. destruct (nth_error ps i) as [p|] eqn:P; [|apply nth_error_None in P; lia].
    rewrite (rad_S ps i p P). pose proof (HW p (nth_error_In _ _ P)) as W.
    destruct i as [|i].
    - destruct ps as [|p0 ps']; [congruence|]. injection P as ->. simpl. lra.
    - destruct (nth_error ps i) as [q|] eqn:Q; [|apply nth_error_None in Q; lia].
      rewrite (rad_S ps i q Q). pose proof (HR i q p Q P) as G. apply Rabs_le_between in G || (unfold Rabs in G; destruct (Rcase_abs _) in G); lra. }
  intros i j [Hij Hj]. induction j as [|j IH]; [lia|].
  destruct (Nat.eq_dec i j) as [->|]; [apply Step; lia|].
  apply Rlt_trans with (nth j (first_radius ps :: map o_rmax ps) 0); [apply IH; lia|apply Step; lia].
Qed.

Lemma last_radius_nth ps : ps <> [] -> nth (length ps) (first_radius ps :: map o_rmax ps) 0 = last_radius ps.
Proof.
  intros H. unfold last_radius. destruct (exists_last H) as [l [a ->]].
  rewrite last_last. rewrite app_length. cbn [length]. replace (length l + 1)%nat with (S (length l)) by lia.
  rewrite (rad_S _ (length l) a); [reflexivity|]. rewrite nth_error_app2 by lia. rewrite Nat.sub_diag. reflexivity.
Qed.

(** location in [nearly_rings]: at most the tolerance off *)
Theorem locate_near ps r radii : ps <> [] -> wide ps -> set_and_check_radii ps = Ok radii ->
  (last_radius ps < r /\ locate (S (length ps)) radii (length ps) r = Ok (-1)%Z) \/
  (r < first_radius ps /\ locate (S (length ps)) radii (length ps) r = Ok (-2)%Z) \/
  (first_radius ps <= r <= last_radius ps /\
   exists k p, nth_error ps k = Some p /\ locate (S (length ps)) radii (length ps) r = Ok (Z.of_nat k) /\
     o_rmin p - / 10 ^ 14 <= r /\ (r < o_rmax p \/ (r = o_rmax p /\ S k = length ps))).
Proof.
  intros Hne HW HS. destruct (radii_ok ps Hne) as [[HR E]|[_ E]]; [|congruence].
  assert (radii = first_radius ps :: map o_rmax ps) by congruence. subst radii.
  pose proof (radii_inc ps HR HW Hne) as HI.
  assert (Hn : (0 < length ps)%nat) by (destruct ps; [congruence|simpl; lia]).
  destruct (locate_cases (first_radius ps :: map o_rmax ps) (length ps) ltac:(simpl; rewrite map_length; lia) HI r Hn) as [[A B]|[[A [A' B]]|[k [Hk [B [C D]]]]]].
  - left. rewrite last_radius_nth in A by auto. auto.
  - right; left. auto.
  - right; right. split.
    + rewrite <- last_radius_nth by auto. split.
      * destruct k; [exact C|]. left. eapply Rlt_le_trans; [|exact C]. apply (HI 0%nat). lia.
      * destruct D as [D|[D ?]].
        { left. eapply Rlt_le_trans; [exact D|]. destruct (Nat.eq_dec (S k) (length ps)) as [<-|]; [lra|]. left. apply HI. lia. }
        { subst r. rewrite H. lra. }
    + destruct (nth_error ps k) as [p|] eqn:P; [|apply nth_error_None in P; lia].
      exists k, p. rewrite (rad_S ps k p P) in D. split; [first [reflexivity|exact P]|]. split; [exact B|]. split; [|exact D].
      destruct k as [|k].
      * destruct ps as [|q ps']; [congruence|]. injection P as ->. pose proof tol_pos. cbn [nth first_radius] in C. lra.
      * destruct (nth_error ps k) as [q|] eqn:Q; [|apply nth_error_None in Q; lia].
        rewrite (rad_S ps k q Q) in C. pose proof (HR k q p Q P) as G.
        unfold Rabs in G; destruct (Rcase_abs _) in G; lra.
Qed.

Lemma rings_nearly ps : rings ps -> nearly_rings ps.
Proof.
  intros H i p q Hp Hq. rewrite (H i p q Hp Hq), Rminus_diag_eq, Rabs_R0 by auto. pose proof tol_pos; lra.
Qed.

Lemma in_ring_unique ps k l r : rings ps -> wide ps -> in_ring ps k r -> in_ring ps l r -> k = l.
Proof.
  intros HR HW. pose proof tol_pos as T.
  assert (G : forall k l, in_ring ps k r -> in_ring ps l r -> (l <= k)%nat).
  { clear k l. intros k l [p [P [A B]]] [q [Q [C D]]].
    assert (Hl : (l < length ps)%nat) by (apply nth_error_Some; congruence).
    destruct (le_lt_dec l k) as [|Hkl]; auto. exfalso.
    assert (M : o_rmax p <= o_rmin q).
    { assert (Hne : ps <> []) by (intros ->; destruct l; discriminate).
      pose proof (radii_inc ps (rings_nearly ps HR) HW Hne) as HI.
      destruct l as [|l]; [lia|].
      destruct (nth_error ps l) as [q'|] eqn:Q'; [|apply nth_error_None in Q'; lia].
      rewrite (HR l q' q Q' Q). rewrite <- (rad_S ps l q' Q'), <- (rad_S ps k p P).
      destruct (Nat.eq_dec k l) as [->|]; [lra|]. left. apply HI. lia. }
    destruct B as [B|[_ B]]; [lra|lia]. }
  intros H1 H2. apply Nat.le_antisymm; apply G; auto.
Qed.

(** exact rings: the locator returns exactly the ring of the point *)
Theorem locate_exact ps r radii : ps <> [] -> wide ps -> rings ps -> set_and_check_radii ps = Ok radii ->
  (forall k, locate (S (length ps)) radii (length ps) r = Ok (Z.of_nat k) <-> in_ring ps k r) /\
  (locate (S (length ps)) radii (length ps) r = Ok (-1)%Z <-> last_radius ps < r) /\
  (locate (S (length ps)) radii (length ps) r = Ok (-2)%Z <-> r < first_radius ps) /\
  (exists z, locate (S (length ps)) radii (length ps) r = Ok z).
Proof.
  intros Hne HW HR HS. pose proof (locate_near ps r radii Hne HW HS) as L.
  assert (Hring : forall k p, nth_error ps k = Some p -> locate (S (length ps)) radii (length ps) r = Ok (Z.of_nat k) ->
     first_radius ps <= r ->  (r < o_rmax p \/ (r = o_rmax p /\ S k = length ps)) -> in_ring ps k r).
  { intros k p P Lk A B. exists p. split; [auto|]. split; [|auto].
    destruct (radii_ok ps Hne) as [[HN E]|[_ E]]; [|congruence].
    assert (radii = first_radius ps :: map o_rmax ps) by congruence. subst radii.
    assert (Hn : (0 < length ps)%nat) by (destruct ps; [congruence|simpl; lia]).
    destruct (locate_cases (first_radius ps :: map o_rmax ps) (length ps) ltac:(simpl; rewrite map_length; lia)
      (radii_inc ps HN HW Hne) r Hn) as [[A1 B1]|[[A1 [A' B1]]|[k' [Hk [B1 [C D]]]]]].
    - rewrite B1 in Lk. injection Lk. unfold outside_rmax_domain. lia.
    - rewrite B1 in Lk. injection Lk. unfold outside_rmin_domain. lia.
    - rewrite B1 in Lk. assert (k' = k) by (injection Lk; lia). subst k'.
      destruct k as [|k].
      + destruct ps as [|q ps']; [congruence|]. injection P as ->. exact A.
      + destruct (nth_error ps k) as [q|] eqn:Q; [|apply nth_error_None in Q; lia].
        rewrite (rad_S ps k q Q) in C. rewrite (HR k q p Q P). exact C. }
  assert (FL : first_radius ps < last_radius ps).
  { rewrite <- last_radius_nth by auto. assert (Hn : (0 < length ps)%nat) by (destruct ps; [congruence|simpl; lia]).
    apply (radii_inc ps (rings_nearly ps HR) HW Hne 0%nat). lia. }
  assert (RL : forall k, in_ring ps k r -> first_radius ps <= r <= last_radius ps).
  { intros k [p [P [A B]]]. assert (Hk : (k < length ps)%nat) by (apply nth_error_Some; congruence).
    pose proof (radii_inc ps (rings_nearly ps HR) HW Hne) as HI. split.
    - destruct k as [|k].
      + destruct ps as [|q ps']; [congruence|]. injection P as ->. exact A.
      + destruct (nth_error ps k) as [q|] eqn:Q; [|apply nth_error_None in Q; lia].
        rewrite (HR k q p Q P) in A. rewrite <- (rad_S ps k q Q) in A.
        left. eapply Rlt_le_trans; [|exact A]. apply (HI 0%nat). lia.
    - assert (r <= o_rmax p) by (destruct B as [B|[B _]]; lra).
      apply Rle_trans with (o_rmax p); auto. rewrite <- last_radius_nth, <- (rad_S ps k p P) by auto.
      destruct (Nat.eq_dec (S k) (length ps)) as [->|]; [lra|]. left. apply HI. lia. }
  destruct L as [[A B]|[[A B]|[A [k [p [P [B [_ D]]]]]]]]; rewrite B.
  - repeat split; intros; try (injection H; intros; lia); try lra; auto; try (exfalso; specialize (RL _ H); lra).
    exists (-1)%Z; auto.
  - repeat split; intros; try (injection H; intros; lia); try lra; auto; try (exfalso; specialize (RL _ H); lra).
    exists (-2)%Z; auto.
  - pose proof (Hring k p P B (proj1 A) D) as IR.
    repeat split; intros; try (injection H; intros; lia); try lra; auto.
    + assert (k0 = k) by (injection H; lia). subst; auto.
    + rewrite (in_ring_unique ps k k0 r HR HW IR H). reflexivity.
    + exists (Z.of_nat k); auto.
Qed.
