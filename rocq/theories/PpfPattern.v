(** The sparsity pattern written by the parallel loops. *)
From Coq Require Import ZifyBool Sorted.
From Verif Require Import Lib DerivModel QuadModel FemModel FemSolve QuadProofs PspModel PspProofs PpfModel PpfSpec PpfRows.
Open Scope nat_scope.

Section Pattern.
  Variables (p : pfem) (sched : schedule).
  Hypothesis HS : fem_sizes p.
  Hypothesis HO : any_order sched.
  Notation ns := (pf_ns p).
  Notation d := (pf_d p).
  Notation nt := (pf_nt p).
  Notation N := (pf_nr p).
  Notation c1 := (pf_c1 p).
  Notation z := Z.of_nat.
  Ltac pushz := repeat first [rewrite Nat2Z.inj_add|rewrite Nat2Z.inj_mul|rewrite Nat2Z.inj_sub by lia]; change (Z.of_nat 1) with 1%Z; change (Z.of_nat 2) with 2%Z; change (Z.of_nat 0) with 0%Z.
  Lemma H_nt : 2 * d + 2 <= nt.
  Proof. exact (fs_theta p HS). Qed.
  Lemma H_N : 2 * d <= N.
  Proof. pose proof (fs_radial p HS). unfold pf_nr, pf_d, nbasis_r. lia. Qed.
  Lemma H_dt : pf_dt p = d.
  Proof. exact (fs_deg p HS). Qed.
  Lemma size_eq : pf_size p = ns + N * nt.
  Proof.
    pose proof (fs_radial p HS). unfold pf_size, polar_nbasis, pf_nr, pf_nt, pf_ns.
    assert (nbasis_r (pf_r p) - c1 = nbasis_r (pf_r p) - c1 - 1 + 1) as -> by (unfold nbasis_r; lia).
    generalize (nbasis_t (pf_t p)) (nbasis_r (pf_r p) - c1 - 1) (n_singular c1). intros a b c. rewrite Nat.mul_add_distr_r. lia.
  Qed.
  Lemma polar_at q it : it < nt -> to_polar p (z c1 + z q) (z it) = Ok (z (ns + q * nt + it)).
  Proof.
    intros H. unfold to_polar. rewrite <- Nat2Z.inj_add, polar_index_ok by (pose proof H_nt; lia).
    rewrite Nat.mod_small by exact H. replace (c1 + q - c1) with q by lia. reflexivity.
  Qed.
  Lemma polar_at_0 q : to_polar p (z c1 + z q) 0 = Ok (z (ns + q * nt)).
  Proof. pose proof H_nt. change 0%Z with (z 0). rewrite (polar_at q 0) by lia. rewrite Nat.add_0_r. reflexivity. Qed.
  Lemma two_d_at q it : it < nt -> to_2d p (z (ns + q * nt + it)) = Ok (z (c1 + q), z it).
  Proof. intros H. unfold to_2d. apply index_2d_ok. exact H. Qed.
  Notation rw := (row ns d nt N).
  Notation up := (upto nat rw).
  (** ** nnz *)
  Definition nnz_at (i : nat) : Z := z (up i).
  Lemma up_at q it : it <= nt -> (z (up (ns + q * nt + it)) = z ns * (z ns + z d * z nt) + z nt * z (nsum q (weight ns d N)) + z it * z (weight ns d N q))%Z.
  Proof.
    intros H. pose proof H_nt as Hnt. pose proof H_N as HN. rewrite up_theta, up_radial by lia.
    rewrite !Nat2Z.inj_add, !Nat2Z.inj_mul, Nat2Z.inj_add, Nat2Z.inj_mul. reflexivity.
  Qed.
  Lemma after_inner : nnz_after_inner p (nnz_singular_rows p * z ns) = z (up (ns + d * nt)).
  Proof.
    pose proof H_nt as Hnt. pose proof H_N as HN. rewrite <- (Nat.add_0_r (ns + d * nt)), up_at by lia. unfold nnz_after_inner, nnz_singular_rows, overlap_theta.
    pose proof (sum_inner ns d nt N Hnt HN d (le_n d)) as C.
    replace (z d * (z d + 2 * z d + 1) * (2 * z d + 1))%Z with ((z (nsum d (weight ns d N)) - z ns * z d) * 2)%Z by (rewrite Z.mul_sub_distr_r; lia).
    rewrite Z.div_mul by lia. change (z 0) with 0%Z. ring.
  Qed.
  Lemma init_nnz_ok : init_nnz p sched = Ok (map nnz_at (seq 0 (ns + N * nt + 1))).
  Proof.
    pose proof H_nt as Hnt. pose proof H_N as HN. unfold init_nnz.
    set (n1 := ns + N * nt + 1).
    assert (PM : forall q it, q < N -> it < nt -> ns + q * nt + it < ns + N * nt).
    { intros q it H1 H2. assert ((q + 1) * nt <= N * nt) by (apply Nat.mul_le_mono_r; lia). lia. }
    (* singular rows *)
    destruct (par_writes 0%Z nnz_at (fun k i => i = k + 1) n1 (nnz_singular p) (sched 0 ns) (repeat 0%Z (pf_size p + 1)) (fun i => i = 0)) as [s0 [E0 [L0 A0]]].
    { intros k s Hk HL. apply all_tasks in Hk; [|exact HO]. unfold nnz_singular.
      replace (z k + 1)%Z with (z (k + 1)) by lia.
      apply wrote_one; [unfold n1 in *; lia|]. unfold nnz_at. rewrite up_sing by lia. unfold nnz_singular_rows. nia. }
    { intros. apply Nat.eq_dec. }
    { rewrite repeat_length, size_eq. reflexivity. }
    { intros i ->. rewrite nth_repeat; reflexivity. }
    rewrite E0. cbn [bind].
    set (sum := (nnz_singular_rows p * z ns)%Z).
    (* inner rows *)
    destruct (par_writes 0%Z nnz_at (fun k i => i = ns + k + 1) n1 (nnz_inner p sum) (sched 1 (d * nt)) s0 (fun i => i <= ns)) as [s1 [E1 [L1 A1]]].
    { intros k s Hk HL. apply all_tasks in Hk; [|exact HO]. unfold nnz_inner.
      assert (Hq : k / nt < d) by (apply Nat.div_lt_upper_bound; lia). pose proof (Nat.mod_upper_bound k nt ltac:(lia)) as Hm.
      pose proof (Nat.div_mod k nt ltac:(lia)) as Ek. set (q := k / nt) in *. set (it := k mod nt) in *.
      rewrite polar_at by exact Hm. cbn [bind]. unfold set_nnz.
      replace (z (ns + q * nt + it) + 1)%Z with (z (ns + k + 1)) by lia.
      apply wrote_one; [pose proof (PM q it ltac:(lia) Hm); unfold n1 in *; lia|].
      unfold nnz_at. replace (ns + k + 1) with (ns + q * nt + (it + 1)) by lia. rewrite up_at by lia.
      rewrite (weight_inner ns d nt N Hnt HN) by lia. pose proof (sum_inner ns d nt N Hnt HN q ltac:(lia)) as C. unfold sum, nnz_singular_rows, overlap_theta.
      replace (((z d + z q + 1) * (z d + z q + 1 - 1) - z d * (z d + 1)) * z nt * (2 * z d + 1))%Z
        with (z nt * (z (nsum q (weight ns d N)) - z ns * z q) * 2)%Z by (rewrite <- Z.mul_assoc, Z.mul_sub_distr_r; replace (z (nsum q (weight ns d N)) * 2)%Z with (2 * z (nsum q (weight ns d N)))%Z by ring; rewrite C; ring).
      rewrite Z.div_mul by lia.
      pushz. ring. }
    { intros. apply Nat.eq_dec. }
    { exact L0. }
    { intros i Hi. apply A0. destruct i as [|i]; [left; reflexivity|right]. exists i. rewrite all_tasks by exact HO. lia. }
    rewrite E1. cbn [bind]. unfold sum; rewrite after_inner.
    replace (stencil_rows p <? 0)%Z with false by (unfold stencil_rows; lia).
    replace (Z.to_nat (stencil_rows p)) with (N - 2 * d) by (unfold stencil_rows; lia).
    rewrite polar_at_0. cbn [bind].
    assert (CV1 : forall i, i <= ns + d * nt -> i <= ns \/ exists k, In k (sched 1 (d * nt)) /\ i = ns + k + 1).
    { intros i Hi. destruct (le_dec i ns); [left; assumption|right]. exists (i - ns - 1). rewrite all_tasks by exact HO. lia. }
    (* stencil *)
    destruct (par_writes 0%Z nnz_at (fun k i => i = ns + d * nt + k + 1) n1 (nnz_stencil p (z (up (ns + d * nt))) (z (ns + d * nt))) (sched 2 ((N - 2 * d) * nt)) s1 (fun i => i <= ns + d * nt)) as [s2 [E2 [L2 A2]]].
    { intros k s Hk HL. apply all_tasks in Hk; [|exact HO]. unfold nnz_stencil, set_nnz.
      assert (Hq : k / nt < N - 2 * d) by (apply Nat.div_lt_upper_bound; lia). pose proof (Nat.mod_upper_bound k nt ltac:(lia)) as Hm.
      pose proof (Nat.div_mod k nt ltac:(lia)) as Ek. set (q := k / nt) in *. set (it := k mod nt) in *.
      replace (z (ns + d * nt) + z k + 1)%Z with (z (ns + d * nt + k + 1)) by lia.
      assert (EI : ns + d * nt + k + 1 = ns + (d + q) * nt + (it + 1)) by lia.
      apply wrote_one; [pose proof (PM (d + q) it ltac:(lia) Hm); unfold n1 in *; lia|].
      unfold nnz_at. rewrite EI, up_at by lia. rewrite (weight_stencil ns d nt N Hnt HN) by lia. rewrite (sum_stencil ns d nt N Hnt HN (d + q)) by lia.
      rewrite <- (Nat.add_0_r (ns + d * nt)), up_at by lia. unfold overlap_theta. rewrite Ek.
      pushz. ring. }
    { intros. apply Nat.eq_dec. }
    { exact L1. }
    { intros i Hi. apply A1. auto. }
    rewrite E2. cbn [bind].
    (* outer rows *)
    replace (z c1 + z N - z d)%Z with (z c1 + z (N - d))%Z by lia. rewrite polar_at_0. cbn [bind].
    assert (EN : (N - d) * nt + d * nt = N * nt) by (rewrite <- Nat.mul_add_distr_r; f_equal; lia).
    replace (z (ns + (N - d) * nt) + z (d * nt) - 1 =? z (pf_size p) - 1)%Z with true by (rewrite size_eq; lia). cbn [check bind].
    assert (SUM : (z (up (ns + d * nt)) + z ((N - 2 * d) * nt) * overlap_theta p * overlap_theta p)%Z = z (up (ns + (N - d) * nt))).
    { rewrite <- (Nat.add_0_r (ns + d * nt)), <- (Nat.add_0_r (ns + (N - d) * nt)), !up_at by lia.
      rewrite (sum_stencil ns d nt N Hnt HN (N - d)) by lia. unfold overlap_theta. pushz. ring. }
    rewrite SUM.
    assert (CV2 : forall i, i <= ns + (N - d) * nt -> i <= ns + d * nt \/ exists k, In k (sched 2 ((N - 2 * d) * nt)) /\ i = ns + d * nt + k + 1).
    { intros i Hi. destruct (le_dec i (ns + d * nt)); [left; assumption|right]. exists (i - (ns + d * nt) - 1). rewrite all_tasks by exact HO.
      assert ((N - 2 * d) * nt + d * nt = (N - d) * nt) by (rewrite <- Nat.mul_add_distr_r; f_equal; lia). lia. }
    destruct (par_writes 0%Z nnz_at (fun k i => i = ns + (N - d) * nt + k + 1) n1
      (nnz_outer p (z (up (ns + (N - d) * nt))) (z (ns + (N - d) * nt)) (z (ns + (N - d) * nt) + z (d * nt) - 1)) (sched 3 (d * nt)) s2 (fun i => i <= ns + (N - d) * nt)) as [s3 [E3 [L3 A3]]].
    { intros k s Hk HL. apply all_tasks in Hk; [|exact HO]. unfold nnz_outer.
      assert (Hq : k / nt < d) by (apply Nat.div_lt_upper_bound; lia). pose proof (Nat.mod_upper_bound k nt ltac:(lia)) as Hm.
      pose proof (Nat.div_mod k nt ltac:(lia)) as Ek. set (q := k / nt) in *. set (it := k mod nt) in *.
      replace (z c1 + z N - z d + z q)%Z with (z c1 + z (N - d + q))%Z by lia. rewrite polar_at by exact Hm. cbn [bind].
      assert (EI : ns + (N - d + q) * nt + it = ns + (N - d) * nt + k) by lia.
      rewrite EI. replace (_ && _)%bool with true by lia. unfold set_nnz.
      replace (z (ns + (N - d) * nt + k) + 1)%Z with (z (ns + (N - d) * nt + k + 1)) by lia.
      apply wrote_one; [unfold n1 in *; lia|].
      unfold nnz_at. replace (ns + (N - d) * nt + k + 1) with (ns + (N - d + q) * nt + (it + 1)) by lia. rewrite up_at by lia.
      rewrite (weight_outer ns d nt N Hnt HN) by lia. replace (N - d + q - (N - d)) with q by lia. pose proof (sum_outer ns d nt N Hnt HN q ltac:(lia)) as C.
      rewrite <- (Nat.add_0_r (ns + (N - d) * nt)), up_at by lia. unfold overlap_theta.
      pushz.
      assert (HH : ((2 * z d - z q) * (2 * z d - z q + 1) / 2)%Z = (z d * (2 * z d + 1) - (z q * (4 * z d - z q + 1)) / 2)%Z).
      { assert (HE : (exists m, z q * (4 * z d - z q + 1) = 2 * m)%Z).
        { exists (2 * z d * z q - z q * (z q - 1) / 2)%Z.
          assert (Z.Even (z q * (z q - 1))) as [m Hm2]. { destruct (Z.Even_or_Odd (z q)) as [[m ->]|[m ->]]; [exists (m * (2 * m - 1))%Z; ring|exists ((2 * m + 1) * m)%Z; ring]. }
          rewrite Hm2. rewrite (Z.mul_comm 2 m), Z.div_mul by lia. lia. }
        destruct HE as [m Hmm]. rewrite Hmm. rewrite (Z.mul_comm 2 m), Z.div_mul by lia.
        replace ((2 * z d - z q) * (2 * z d - z q + 1))%Z with ((z d * (2 * z d + 1) - m) * 2)%Z by (rewrite Z.mul_sub_distr_r, (Z.mul_comm m 2), <- Hmm; ring).
        rewrite Z.div_mul by lia. reflexivity. }
      rewrite HH.
      assert (EV : (z (nsum (N - d + q) (weight ns d N)) = z (nsum (N - d) (weight ns d N)) + (2 * z d + 1) * ((z q * (4 * z d - z q + 1)) / 2))%Z).
      { assert (Z.Even (z q * (4 * z d - z q + 1))) as [m Hmm]. { destruct (Z.Even_or_Odd (z q)) as [[m ->]|[m ->]]; [exists (m * (4 * z d - 2 * m + 1))%Z; ring|exists ((2 * m + 1) * (2 * z d - m))%Z; ring]. }
        rewrite Hmm in *. rewrite (Z.mul_comm 2 m), Z.div_mul by lia. lia. }
      rewrite EV. ring. }
    { intros. apply Nat.eq_dec. }
    { exact L2. }
    { intros i Hi. apply A2. auto. }
    rewrite E3. f_equal. apply (agrees_all 0%Z nnz_at _ n1 s3 L3 A3).
    intros i Hi. destruct (le_dec i (ns + (N - d) * nt)); [left; assumption|right]. exists (i - (ns + (N - d) * nt) - 1). rewrite all_tasks by exact HO. unfold n1 in *. lia.
  Qed.
  Lemma total : n_matrix_elements p = z (up (ns + N * nt)).
  Proof.
    pose proof H_nt as Hnt. pose proof H_N as HN. rewrite <- (Nat.add_0_r (ns + N * nt)), up_at by lia. unfold n_matrix_elements. rewrite H_dt.
    rewrite (sum_all ns d nt N) by lia. replace (Z.min (1 + 2 * z d) (z nt)) with (2 * z d + 1)%Z by lia. change (z 0) with 0%Z. ring.
  Qed.
  (** ** Columns *)
  Notation n := (ns + N * nt).
  Notation nnzl := (map nnz_at (seq 0 (n + 1))).
  Definition colF (k : nat) : option Z := Some (z (nth k (flat_map rw (seq 0 n)) 0)).
  Lemma rd_nnz i : i <= n -> rd nnzl (z i) = Ok (z (up i)).
  Proof.
    intros H. rewrite (rd_nth _ i (nnz_at 0)) by (rewrite map_length, seq_length; lia). rewrite map_nth, seq_nth by lia. reflexivity.
  Qed.
  Lemma colF_at i m : i < n -> m < length (rw i) -> colF (up i + m) = Some (z (nth m (rw i) 0)).
  Proof. intros H1 H2. unfold colF. rewrite concat_nth by assumption. reflexivity. Qed.
  Lemma in_range i m : i < n -> m < length (rw i) -> up i + m < up n.
  Proof. intros H1 H2. pose proof (upto_le nat rw (S i) n H1) as L. rewrite upto_S in L. lia. Qed.
  Lemma row_index q it : q < N -> it < nt -> ns + q * nt + it < n.
  Proof. intros H1 H2. assert ((q + 1) * nt <= N * nt) by (apply Nat.mul_le_mono_r; lia). lia. Qed.
  Lemma div_lt k a b : k < a * b -> k / b < a /\ k mod b < b /\ k = (k / b) * b + k mod b.
  Proof.
    intros H. assert (b <> 0) by nia. split; [apply Nat.div_lt_upper_bound; lia|]. split; [apply Nat.mod_upper_bound; lia|].
    rewrite Nat.mul_comm. apply Nat.div_mod. lia.
  Qed.
  Lemma col_sing_sing_ok k c : k < ns * ns -> length c = up n ->
    exists c', col_sing_sing p nnzl k c = Ok c' /\ wrote None colF (fun i => i = up (k / ns) + k mod ns) c c'.
  Proof.
    intros Hk HL. destruct (div_lt k ns ns Hk) as [H1 [H2 _]]. unfold col_sing_sing. rewrite rd_nnz by lia. cbn [bind]. rewrite <- Nat2Z.inj_add.
    assert (HR : length (rw (k / ns)) = ns + d * nt) by (rewrite (row_sing ns d nt N H_nt H_N), seq_length by exact H1; reflexivity).
    apply wrote_one; [rewrite HL; apply in_range; lia|]. rewrite colF_at by lia. rewrite (row_sing ns d nt N H_nt H_N), seq_nth by lia. reflexivity.
  Qed.
  Lemma col_sing_tensor_ok k c : k < ns * (d * nt) -> length c = up n ->
    exists c', col_sing_tensor p nnzl k c = Ok c' /\
      wrote None colF (fun i => i = up (k / (d * nt)) + (k mod (d * nt) + ns) \/ i = up (k mod (d * nt) + ns) + k / (d * nt)) c c'.
  Proof.
    intros Hk HL. pose proof H_nt as Hnt. pose proof H_N as HN. destruct (div_lt k ns (d * nt) Hk) as [H1 [H2 _]]. unfold col_sing_tensor.
    set (r := k / (d * nt)) in *. set (t := k mod (d * nt)) in *.
    assert (HR : length (rw r) = ns + d * nt) by (rewrite (row_sing ns d nt N H_nt H_N), seq_length by exact H1; reflexivity).
    destruct (div_lt t d nt H2) as [H3 [H4 H5]]. set (q := t / nt) in *. set (it := t mod nt) in *.
    assert (EI : t + ns = ns + q * nt + it) by lia. pose proof (row_index q it ltac:(lia) H4) as HI.
    rewrite rd_nnz by lia. cbn [bind]. rewrite <- Nat2Z.inj_add.
    destruct (wrote_one None colF c (up r + (t + ns)) (Some (z (t + ns)))) as [c1' [E1 W1]].
    { rewrite HL. apply in_range; lia. }
    { rewrite colF_at by lia. rewrite (row_sing ns d nt N H_nt H_N), seq_nth by lia. reflexivity. }
    rewrite E1. cbn [bind]. rewrite rd_nnz by lia. cbn [bind]. rewrite <- Nat2Z.inj_add.
    assert (HW : weight ns d N q = ns + (d + q + 1) * (2 * d + 1)) by (apply (weight_inner ns d nt N Hnt HN); lia).
    destruct (wrote_one None colF c1' (up (t + ns) + r) (Some (z r))) as [c2' [E2 W2]].
    { rewrite (proj1 W1), HL. apply in_range; [lia|]. rewrite EI, (row_tensor_len ns d nt N H_nt H_N) by assumption. lia. }
    { rewrite colF_at; [|lia|rewrite EI, (row_tensor_len ns d nt N H_nt H_N) by assumption; lia].
      rewrite EI, (row_tensor ns d nt N H_nt H_N) by assumption. unfold sing_part. replace (q <? d) with true by lia. rewrite app_nth1 by (rewrite seq_length; lia). rewrite seq_nth by lia. reflexivity. }
    exists c2'. split; [exact E2|]. apply (wrote_trans _ _ _ _ _ _ _ W1 W2). intros; apply Nat.eq_dec.
  Qed.
  (** consecutive writes *)
  Lemma push_ok (get : nat -> res Z) (vals : nat -> Z) start off m (c : columns) :
    (forall k, k < m -> get k = Ok (vals k)) -> start + off + m <= length c -> (forall k, k < m -> colF (start + off + k) = Some (vals k)) ->
    exists c', for_res m (fun k (s : columns * Z) => let (c, o) := s in let* col := get k in let* c := wr c (z start + o) (Some col) in Ok (c, o + 1)%Z) (c, z off) = Ok (c', z (off + m)) /\
      wrote None colF (fun i => start + off <= i < start + off + m) c c'.
  Proof.
    induction m as [|m IH]; intros HG HL HF; cbn [for_res].
    - exists c. rewrite Nat.add_0_r. split; [reflexivity|]. split; [reflexivity|]. split; [intros i Hi; lia|reflexivity].
    - destruct IH as [c' [E W]]; [auto|lia|auto|]. rewrite E. cbn [bind]. rewrite HG by lia. cbn [bind].
      destruct (wrote_one None colF c' (start + off + m) (Some (vals m))) as [c2' [E2 W2]]; [rewrite (proj1 W); lia|apply HF; lia|].
      replace (z start + z (off + m))%Z with (z (start + off + m)) by lia. rewrite E2. cbn [bind]. exists c2'. split; [repeat f_equal; lia|].
      eapply wrote_iff; [apply (wrote_trans _ _ _ _ _ _ _ W W2); intros; apply Nat.eq_dec|]. intros i; cbv beta; lia.
  Qed.
  Lemma col_theta_ok start off from m q' c : from + m <= nt -> start + off + m <= length c ->
    (forall k, k < m -> colF (start + off + k) = Some (z (ns + q' * nt + (from + k)))) ->
    exists c', col_theta p (z start) (z (c1 + q')) (z from) (z (from + m)) (c, z off) = Ok (c', z (off + m)) /\
      wrote None colF (fun i => start + off <= i < start + off + m) c c'.
  Proof.
    intros H1 H2 H3. unfold col_theta. replace (Z.to_nat (z (from + m) - z from)) with m by lia.
    apply (push_ok (fun k => to_polar p (z (c1 + q')) (z from + z k)) (fun k => z (ns + q' * nt + (from + k)))); auto.
    intros k Hk. replace (z (c1 + q'))%Z with (z c1 + z q')%Z by lia. replace (z from + z k)%Z with (z (from + k)) by lia. rewrite polar_at by lia. reflexivity.
  Qed.
  Lemma col_radial_ok start off it q' c : it < nt -> start + off + (2 * d + 1) <= length c ->
    (forall k, k < 2 * d + 1 -> colF (start + off + k) = Some (z (ns + q' * nt + nth k (th_row d nt it) 0))) ->
    exists c', col_radial p (z start) (z it) (z (c1 + q')) (c, z off) = Ok (c', z (off + (2 * d + 1))) /\
      wrote None colF (fun i => start + off <= i < start + off + (2 * d + 1)) c c'.
  Proof.
    intros Hi HL HF. pose proof H_nt as Hnt. unfold col_radial. rewrite H_dt.
    assert (G : forall f1 m1 f2 m2, m1 + m2 = 2 * d + 1 -> th_row d nt it = seq f1 m1 ++ seq f2 m2 -> f1 + m1 <= nt -> f2 + m2 = nt ->
      exists c', (let* s := col_theta p (z start) (z (c1 + q')) (z f1) (z (f1 + m1)) (c, z off) in col_theta p (z start) (z (c1 + q')) (z f2) (z nt) s) = Ok (c', z (off + (2 * d + 1))) /\
        wrote None colF (fun i => start + off <= i < start + off + (2 * d + 1)) c c').
    { intros f1 m1 f2 m2 HM HT HB1 HB2. rewrite HT in HF.
      destruct (col_theta_ok start off f1 m1 q' c) as [c' [E1 W1]]; [lia|lia| |].
      { intros k Hk. rewrite HF by lia. rewrite app_nth1 by (rewrite seq_length; lia). rewrite seq_nth by lia. reflexivity. }
      rewrite E1. cbn [bind]. rewrite <- HB2.
      destruct (col_theta_ok start (off + m1) f2 m2 q' c') as [c2' [E2 W2]]; [lia|rewrite (proj1 W1); lia| |].
      { intros k Hk. replace (start + (off + m1) + k) with (start + off + (m1 + k)) by lia. rewrite HF by lia. rewrite app_nth2 by (rewrite seq_length; lia). rewrite seq_length, seq_nth by lia. do 2 f_equal. lia. }
      rewrite E2. exists c2'. split; [replace (off + m1 + m2) with (off + (2 * d + 1)) by lia; reflexivity|].
      eapply wrote_iff; [apply (wrote_trans _ _ _ _ _ _ _ W1 W2)|]; [intros i; destruct (le_dec (start + (off + m1)) i); destruct (lt_dec i (start + (off + m1) + m2)); try (left; lia); right; lia|]. intros i; cbv beta; lia. }
    unfold mod_add, th_row in *. destruct (it <? d) eqn:E; [|destruct (it + d + 1 <? nt) eqn:E2].
    - replace (z it <? - - z d)%Z with true by lia. replace (z it <? - (z d + 1))%Z with false by lia. replace (z nt - 1 - z it <? z d + 1)%Z with false by lia.
      replace (z it + (z d + 1) <? z it + z nt + - z d)%Z with true by lia.
      replace (z it + (z d + 1))%Z with (z (0 + (it + d + 1))) by lia. replace (z it + z nt + - z d)%Z with (z (it + nt - d)) by lia. change 0%Z with (z 0).
      apply (G 0 (it + d + 1) (it + nt - d) (d - it)); try reflexivity; lia.
    - replace (z it <? - - z d)%Z with false by lia. replace (z nt - 1 - z it <? - z d)%Z with false by lia. replace (z it <? - (z d + 1))%Z with false by lia.
      replace (z nt - 1 - z it <? z d + 1)%Z with false by lia. replace (z it + (z d + 1) <? z it + - z d)%Z with false by lia.
      replace (z it + (z d + 1))%Z with (z (it - d + (2 * d + 1))) by lia. replace (z it + - z d)%Z with (z (it - d)) by lia.
      apply (G (it - d) (2 * d + 1) nt 0); try lia. rewrite app_nil_r. reflexivity.
    - replace (z it <? - - z d)%Z with false by lia. replace (z nt - 1 - z it <? - z d)%Z with false by lia. replace (z it <? - (z d + 1))%Z with false by lia.
      replace (z nt - 1 - z it <? z d + 1)%Z with true by lia. replace (z it + (z d + 1) - z nt <? z it + - z d)%Z with true by lia.
      replace (z it + (z d + 1) - z nt)%Z with (z (0 + (it + d + 1 - nt))) by lia. replace (z it + - z d)%Z with (z (it - d)) by lia. change 0%Z with (z 0).
      apply (G 0 (it + d + 1 - nt) (it - d) (nt - (it - d))); try reflexivity; lia.
  Qed.
  Lemma flat_seq_nth {A} (f : nat -> list A) (dft : A) L q0 len a m : (forall x, length (f x) = L) -> a < len -> m < L ->
    nth (a * L + m) (flat_map f (seq q0 len)) dft = nth m (f (q0 + a)) dft.
  Proof.
    intros HL. revert q0 a. induction len as [|len IH]; intros q0 a Ha Hm; [lia|]. cbn [seq flat_map]. destruct a as [|a].
    - rewrite app_nth1 by (rewrite HL; lia). rewrite Nat.add_0_r. reflexivity.
    - rewrite app_nth2 by (rewrite HL; cbn [Nat.mul]; lia). rewrite HL. replace (S a * L + m - L) with (a * L + m) by (cbn [Nat.mul]; lia).
      rewrite IH by lia. replace (S q0 + a) with (q0 + S a) by lia. reflexivity.
  Qed.
  Lemma tensor_nth q it a m : it < nt -> a < Nat.min N (q + d + 1) - (q - d) -> m < 2 * d + 1 ->
    nth (a * (2 * d + 1) + m) (tensor_part ns d nt N q it) 0 = ns + (q - d + a) * nt + nth m (th_row d nt it) 0.
  Proof.
    intros H1 H2 H3. pose proof H_nt as Hnt. unfold tensor_part, rad_row.
    pose proof (th_len d nt N H_nt H_N it H1) as TL.
    rewrite (flat_seq_nth _ 0 (2 * d + 1)); [|intros; rewrite map_length; exact TL|exact H2|exact H3].
    rewrite (nth_indep _ 0 (ns + (q - d + a) * nt + 0)) by (rewrite map_length, TL; exact H3).
    exact (map_nth (fun j => ns + (q - d + a) * nt + j) (th_row d nt it) 0 m).
  Qed.
  Definition sing_off (q : nat) : nat := if q <? d then ns else 0.
  Lemma first_offset_at q : first_offset p (z (c1 + q)) = z (sing_off q).
  Proof.
    unfold first_offset, sing_off. replace ((z c1 <=? z (c1 + q)) && (z (c1 + q) <? z c1 + z d))%Z%bool with (q <? d) by lia. destruct (q <? d); reflexivity.
  Qed.
  Lemma col_tensor_ok q it c : q < N -> it < nt -> length c = up n ->
    exists c', col_tensor_tensor p nnzl (q * nt + it) c = Ok c' /\
      wrote None colF (fun i => up (ns + q * nt + it) + sing_off q <= i < up (S (ns + q * nt + it))) c c'.
  Proof.
    intros Hq Hi HL. pose proof H_nt as Hnt. pose proof H_N as HN. pose proof (row_index q it Hq Hi) as HI. unfold col_tensor_tensor.
    replace (ns + (q * nt + it)) with (ns + q * nt + it) by lia. rewrite two_d_at by exact Hi. cbn [bind]. rewrite rd_nnz by lia. cbn [bind].
    rewrite first_offset_at. rewrite upto_S, (row_tensor_len ns d nt N H_nt H_N) by exact Hi.
    set (len := Nat.min N (q + d + 1) - (q - d)). assert (EW : weight ns d N q = sing_off q + len * (2 * d + 1)) by reflexivity.
    assert (EL : Z.to_nat (r_offset_max p (z (c1 + q)) - r_offset_min p (z (c1 + q))) = len).
    { unfold r_offset_max, r_offset_min, len. assert (nbasis_r (pf_r p) = c1 + N + 1) as ->. { pose proof (fs_radial p HS). unfold pf_nr, nbasis_r. lia. } lia. }
    rewrite EL. set (start := up (ns + q * nt + it)).
    assert (TOT : start + sing_off q + len * (2 * d + 1) <= length c).
    { rewrite HL. pose proof (upto_le nat rw (S (ns + q * nt + it)) n HI) as L. rewrite upto_S, (row_tensor_len ns d nt N H_nt H_N), EW in L by exact Hi. fold start in L. lia. }
    destruct (for_res_inv (fun k (s : columns * Z) => snd s = z (sing_off q + k * (2 * d + 1)) /\
        wrote None colF (fun i => start + sing_off q <= i < start + sing_off q + k * (2 * d + 1)) c (fst s)) len
      (fun k s => col_radial p (z start) (z it) (z (c1 + q) + (r_offset_min p (z (c1 + q)) + z k)) s) (c, z (sing_off q))) as [[c' o] [E [_ W]]].
    - cbn [fst snd]. split; [lia|]. split; [reflexivity|]. split; [intros i Hx; lia|reflexivity].
    - intros k [s o] Hk [Ho W]. cbn [fst snd] in *. subst o.
      replace (z (c1 + q) + (r_offset_min p (z (c1 + q)) + z k))%Z with (z (c1 + (q - d + k))) by (unfold r_offset_min; lia).
      assert (KB : k * (2 * d + 1) + (2 * d + 1) <= len * (2 * d + 1)) by (assert ((k + 1) * (2 * d + 1) <= len * (2 * d + 1)) by (apply Nat.mul_le_mono_r; lia); lia).
      destruct (col_radial_ok start (sing_off q + k * (2 * d + 1)) it (q - d + k) s Hi) as [s' [E' W']].
      + rewrite (proj1 W). lia.
      + intros m Hm. replace (start + (sing_off q + k * (2 * d + 1)) + m) with (start + (sing_off q + (k * (2 * d + 1) + m))) by lia. unfold start.
        rewrite colF_at; [|exact HI|rewrite (row_tensor_len ns d nt N H_nt H_N), EW by exact Hi; lia]. rewrite (row_tensor ns d nt N H_nt H_N) by exact Hi.
        rewrite app_nth2 by (rewrite sing_len; fold (sing_off q); lia). rewrite sing_len. fold (sing_off q).
        replace (sing_off q + (k * (2 * d + 1) + m) - sing_off q) with (k * (2 * d + 1) + m) by lia. rewrite tensor_nth by assumption. reflexivity.
      + eexists. split; [exact E'|]. cbn [fst snd]. split; [f_equal; lia|].
        eapply wrote_iff; [apply (wrote_trans _ _ _ _ _ _ _ W W')|].
        * intros i. destruct (le_dec (start + (sing_off q + k * (2 * d + 1))) i); destruct (lt_dec i (start + (sing_off q + k * (2 * d + 1)) + (2 * d + 1))); try (left; lia); right; lia.
        * intros i; cbv beta; cbn [Nat.mul]; lia.
    - rewrite E. cbn [bind fst]. exists c'. split; [reflexivity|]. eapply wrote_iff; [exact W|]. intros i; cbv beta; rewrite EW; fold start; lia.
  Qed.
  Lemma setup_ok : setup_sparse_matrix p sched = Ok (nnzl, map colF (seq 0 (up n))).
  Proof.
    pose proof H_nt as Hnt. pose proof H_N as HN. unfold setup_sparse_matrix. rewrite total, Nat2Z.id, init_nnz_ok. cbn [bind].
    destruct (par_writes None colF (fun k i => i = up (k / ns) + k mod ns) (up n) (col_sing_sing p nnzl) (sched 4 (ns * ns)) (repeat None (up n)) (fun _ => False)) as [s1 [E1 [L1 A1]]].
    { intros k s Hk HL. apply all_tasks in Hk; [|exact HO]. apply col_sing_sing_ok; assumption. }
    { intros; apply Nat.eq_dec. }
    { apply repeat_length. }
    { intros i []. }
    rewrite E1. cbn [bind].
    destruct (fun HB DW => par_writes None colF (fun k i => i = up (k / (d * nt)) + (k mod (d * nt) + ns) \/ i = up (k mod (d * nt) + ns) + k / (d * nt)) (up n)
      (col_sing_tensor p nnzl) (sched 5 (ns * (d * nt))) s1 _ HB DW L1 A1) as [s2 [E2 [L2 A2]]].
    { intros k s Hk HL. apply all_tasks in Hk; [|exact HO]. apply col_sing_tensor_ok; assumption. }
    { intros k i. destruct (Nat.eq_dec i (up (k / (d * nt)) + (k mod (d * nt) + ns))); [left; left; assumption|].
      destruct (Nat.eq_dec i (up (k mod (d * nt) + ns) + k / (d * nt))); [left; right; assumption|right; intros [?|?]; contradiction]. }
    rewrite E2. cbn [bind].
    destruct (fun HB DW => par_writes None colF (fun k i => up (ns + k) + sing_off (k / nt) <= i < up (S (ns + k))) (up n)
      (col_tensor_tensor p nnzl) (sched 6 (N * nt)) s2 _ HB DW L2 A2) as [s3 [E3 [L3 A3]]].
    { intros k s Hk HL. apply all_tasks in Hk; [|exact HO]. destruct (div_lt k N nt Hk) as [H1 [H2 H3]].
      pose proof (col_tensor_ok (k / nt) (k mod nt) s H1 H2 HL) as X. replace (ns + k / nt * nt + k mod nt) with (ns + k) in X by lia. rewrite <- H3 in X. exact X. }
    { intros k i. destruct (le_dec (up (ns + k) + sing_off (k / nt)) i); destruct (lt_dec i (up (S (ns + k)))); try (left; lia); right; lia. }
    rewrite E3. cbn [bind]. do 2 f_equal. apply (agrees_all None colF _ (up n) s3 L3 A3).
    intros x Hx. destruct (upto_find nat rw n x Hx) as [i [m [Hi [Hm ->]]]].
    destruct (lt_dec i ns) as [Ls|Ls].
    - rewrite (row_sing ns d nt N H_nt H_N), seq_length in Hm by exact Ls. destruct (lt_dec m ns) as [Lm|Lm].
      + left. left. right. exists (i * ns + m). rewrite all_tasks by exact HO. split; [nia|]. rewrite Nat.div_add_l, Nat.div_small, Nat.add_0_r by lia. rewrite (Nat.add_comm (i * ns) m), Nat.mod_add, Nat.mod_small by lia. lia.
      + left. right. assert (HB : m - ns < d * nt) by lia. exists (i * (d * nt) + (m - ns)). rewrite all_tasks by exact HO. split; [nia|]. left.
        rewrite Nat.div_add_l, Nat.div_small, Nat.add_0_r by lia. rewrite (Nat.add_comm (i * (d * nt))), Nat.mod_add, Nat.mod_small by lia. lia.
    - assert (Hk : i - ns < N * nt) by lia. destruct (div_lt (i - ns) N nt Hk) as [H1 [H2 H3]].
      set (q := (i - ns) / nt) in *. set (it := (i - ns) mod nt) in *. assert (EI : i = ns + q * nt + it) by lia.
      destruct (le_dec (sing_off q) m) as [Lm|Lm].
      + right. exists (i - ns). rewrite all_tasks by exact HO. split; [exact Hk|]. fold q. replace (ns + (i - ns)) with i by lia. rewrite upto_S. lia.
      + left. right. unfold sing_off in Lm. destruct (q <? d) eqn:Eq; [|lia]. assert (HB : i - ns < d * nt) by (assert ((q + 1) * nt <= d * nt) by (apply Nat.mul_le_mono_r; lia); lia).
        exists (m * (d * nt) + (i - ns)). rewrite all_tasks by exact HO. split; [nia|]. right.
        rewrite Nat.div_add_l, Nat.div_small, Nat.add_0_r by lia. rewrite (Nat.add_comm (m * (d * nt))), Nat.mod_add, Nat.mod_small by lia. replace (i - ns + ns) with i by lia. lia.
  Qed.
End Pattern.
