(** The arrays are the compressed rows of the pattern "the supports share a cell". *)
From Coq Require Import ZifyBool.
From Verif Require Import Lib DerivModel QuadModel FemModel FemSolve QuadProofs PspModel PspProofs PpfModel PpfSpec PpfRows PpfPattern.
Open Scope nat_scope.

Definition inc (l : list nat) : Prop := forall m m', m < m' -> m' < length l -> nth m l 0 < nth m' l 0.
Lemma inc_seq a n : inc (seq a n).
Proof. intros m m' H H'. rewrite seq_length in H'. rewrite !seq_nth by lia. lia. Qed.
Lemma inc_app l1 l2 : inc l1 -> inc l2 -> (forall x y, In x l1 -> In y l2 -> x < y) -> inc (l1 ++ l2).
Proof.
  intros H1 H2 H m m' Hm Hl. rewrite app_length in Hl. destruct (lt_dec m' (length l1)).
  - rewrite !app_nth1 by lia. auto.
  - destruct (lt_dec m (length l1)).
    + rewrite (app_nth2 l1 l2 0 (n:=m')), app_nth1 by lia. apply H; apply nth_In; lia.
    + rewrite !app_nth2 by lia. apply H2; lia.
Qed.
Lemma inc_map f l : (forall x y, x < y -> f x < f y) -> inc l -> inc (map f l).
Proof.
  intros Hf H m m' Hm Hl. rewrite map_length in Hl. rewrite !(nth_indep (map f l) 0 (f 0)) by (rewrite map_length; lia). rewrite !map_nth. auto.
Qed.
Lemma inc_flat (f : nat -> list nat) len q0 : (forall q, inc (f q)) -> (forall q q' x y, q < q' -> In x (f q) -> In y (f q') -> x < y) -> inc (flat_map f (seq q0 len)).
Proof.
  intros H1 H2. revert q0. induction len as [|len IH]; intros q0; cbn [seq flat_map]; [intros m m' _ Hl; cbn in Hl; lia|].
  apply inc_app; auto. intros x y Hx Hy. apply in_flat_map in Hy. destruct Hy as [q' [Hq' Hy]]. apply in_seq in Hq'. apply (H2 q0 q'); auto; lia.
Qed.

Section Csr.
  Variable p : pfem.
  Hypothesis HS : fem_sizes p.
  Notation ns := (pf_ns p).
  Notation d := (pf_d p).
  Notation nt := (pf_nt p).
  Notation N := (pf_nr p).
  Notation c1 := (pf_c1 p).
  Notation z := Z.of_nat.
  Notation rw := (row ns d nt N).
  Notation up := (upto nat rw).
  Notation n := (ns + N * nt).
  Let Hnt := H_nt p HS.
  Let HN := H_N p HS.
  Lemma th_inc it : it < nt -> inc (th_row d nt it).
  Proof.
    intros H. pose proof Hnt. unfold th_row. destruct (it <? d) eqn:E; [|destruct (it + d + 1 <? nt) eqn:E2]; try apply inc_seq; apply inc_app; try apply inc_seq; intros x y Hx Hy; apply in_seq in Hx, Hy; lia.
  Qed.
  Lemma tensor_inc q it : it < nt -> inc (tensor_part ns d nt N q it).
  Proof.
    intros H. unfold tensor_part, rad_row. apply inc_flat.
    - intros q'. apply inc_map; [lia|apply th_inc, H].
    - intros q1 q2 x y Hq Hx Hy. apply in_map_iff in Hx, Hy. destruct Hx as [a [<- Ha]], Hy as [b [<- Hb]].
      apply (th_lt d nt N Hnt HN it a H) in Ha. apply (th_lt d nt N Hnt HN it b H) in Hb.
      assert ((q1 + 1) * nt <= q2 * nt) by (apply Nat.mul_le_mono_r; lia). lia.
  Qed.
  Lemma tensor_in q it x : In x (tensor_part ns d nt N q it) <-> exists q' jt, x = ns + q' * nt + jt /\ In q' (rad_row d N q) /\ In jt (th_row d nt it).
  Proof.
    unfold tensor_part. rewrite in_flat_map. split.
    - intros [q' [Hq Hx]]. apply in_map_iff in Hx. destruct Hx as [jt [<- Hj]]. eauto.
    - intros [q' [jt [-> [H1 H2]]]]. exists q'. split; [exact H1|]. apply in_map_iff. eauto.
  Qed.
  Lemma row_inc i : i < n -> inc (rw i).
  Proof.
    intros Hi. destruct (lt_dec i ns) as [L|L]; [rewrite (row_sing ns d nt N Hnt HN) by exact L; apply inc_seq|].
    destruct (div_lt (i - ns) N nt ltac:(lia)) as [H1 [H2 H3]]. unfold row. replace (i <? ns) with false by lia.
    apply inc_app; [unfold sing_part; destruct (_ <? d); [apply inc_seq|intros ? ? ? Hl; cbn in Hl; lia]|apply tensor_inc, H2|].
    intros x y Hx Hy. apply tensor_in in Hy. destruct Hy as [q' [jt [-> _]]]. unfold sing_part in Hx. destruct (_ <? d); [apply in_seq in Hx; lia|destruct Hx].
  Qed.
  Lemma near_iff it b : it < nt -> b < nt -> (exists m, m <= d /\ (b + m) mod nt = it) <-> near d nt it b.
  Proof.
    intros H1 H2. pose proof Hnt. unfold near. split.
    - intros [m [Hm E]]. destruct (lt_dec (b + m) nt); [rewrite Nat.mod_small in E by lia; lia|].
      assert (b + m = (b + m - nt) + 1 * nt) as EQ by lia. rewrite EQ, Nat.mod_add, Nat.mod_small in E by lia. lia.
    - intros [H'|H'].
      + exists (it - b). split; [lia|]. rewrite Nat.mod_small by lia. lia.
      + exists (it + nt - b). split; [lia|]. replace (b + (it + nt - b)) with (it + 1 * nt) by lia. rewrite Nat.mod_add, Nat.mod_small by lia. reflexivity.
  Qed.
  Lemma touches_sing i a b : i < ns -> touches p i a b <-> a < c1.
  Proof. intros H. unfold touches. unfold pf_ns, n_singular in H. replace (i <? _) with true by lia. reflexivity. Qed.
  Lemma touches_tensor q it a b : it < nt -> b < nt -> touches p (ns + q * nt + it) a b <-> a <= c1 + q <= a + d /\ near d nt it b.
  Proof.
    intros H1 H2. unfold touches. change (c1 * (c1 + 1) / 2) with ns. change (b_cells (pf_t p)) with nt. change (b_deg (pf_t p)) with (pf_dt p). rewrite (H_dt p HS). change (b_deg (pf_r p)) with d.
    replace (_ <? ns) with false by lia. replace (ns + q * nt + it - ns) with (q * nt + it) by lia.
    rewrite Nat.div_add_l, Nat.div_small, Nat.add_0_r by lia. rewrite (Nat.add_comm (q * nt) it), Nat.mod_add, Nat.mod_small by lia.
    rewrite near_iff by assumption. reflexivity.
  Qed.
  Lemma c1_pos i : i < ns -> 1 <= c1.
  Proof. unfold pf_ns, n_singular. intros H. destruct c1; [cbn in H; lia|lia]. Qed.
  Lemma split_index i : ns <= i -> i < n -> exists q it, q < N /\ it < nt /\ i = ns + q * nt + it.
  Proof.
    intros H1 H2. destruct (div_lt (i - ns) N nt ltac:(lia)) as [H3 [H4 H5]]. exists ((i - ns) / nt), ((i - ns) mod nt). split; [exact H3|]. split; [exact H4|]. lia.
  Qed.
  Lemma cells_eq : b_cells (pf_r p) + d = c1 + N + 1.
  Proof. pose proof (fs_radial p HS). unfold pf_nr, pf_d, nbasis_r. lia. Qed.
  Lemma row_in i j : i < n -> j < n -> In j (rw i) <-> share_cell p i j.
  Proof.
    intros Hi Hj. pose proof Hnt as Hnt'. pose proof HN as HN'. pose proof (fs_radial p HS) as HR. pose proof cells_eq as CE. fold (pf_d p) in HR. unfold share_cell. change (b_cells (pf_t p)) with nt.
    destruct (lt_dec i ns) as [Li|Li].
    - rewrite (row_sing ns d nt N Hnt HN) by exact Li. rewrite in_seq. pose proof (c1_pos i Li). destruct (lt_dec j ns) as [Lj|Lj].
      + split; [intros _|intros _; lia]. exists 0, 0. rewrite !touches_sing by assumption. lia.
      + destruct (split_index j ltac:(lia) Hj) as [q [jt [Hq [Hjt ->]]]]. split.
        * intros [_ H1]. assert (q < d) by nia. exists (c1 - 1), jt. rewrite touches_sing, touches_tensor by assumption. unfold near. lia.
        * intros [a [b [Ha [Hb [T1 T2]]]]]. rewrite touches_sing in T1 by assumption. rewrite touches_tensor in T2 by assumption.
          assert ((q + 1) * nt <= d * nt) by (apply Nat.mul_le_mono_r; lia). lia.
    - destruct (split_index i ltac:(lia) Hi) as [q [it [Hq [Hit ->]]]]. rewrite (row_tensor ns d nt N Hnt HN) by exact Hit. rewrite in_app_iff.
      destruct (lt_dec j ns) as [Lj|Lj].
      + pose proof (c1_pos j Lj). split.
        * intros [H1|H1]; [|apply tensor_in in H1; destruct H1 as [q' [jt [-> _]]]; lia].
          unfold sing_part in H1. destruct (q <? d) eqn:E; [|destruct H1]. exists (c1 - 1), it. rewrite touches_tensor, touches_sing by assumption. unfold near. lia.
        * intros [a [b [Ha [Hb [T1 T2]]]]]. rewrite touches_sing in T2 by assumption. rewrite touches_tensor in T1 by assumption.
          left. unfold sing_part. replace (q <? d) with true by lia. apply in_seq. lia.
      + destruct (split_index j ltac:(lia) Hj) as [q' [jt [Hq' [Hjt ->]]]]. split.
        * intros [H1|H1]; [unfold sing_part in H1; destruct (q <? d); [apply in_seq in H1; lia|destruct H1]|].
          apply tensor_in in H1. destruct H1 as [q2 [jt2 [E [R1 T1]]]].
          assert (jt2 < nt) by exact (th_lt d nt N Hnt HN it jt2 Hit T1).
          assert (q' = q2 /\ jt = jt2) as [<- <-].
          { assert (E2 : q' * nt + jt = q2 * nt + jt2) by lia. assert (q' = q2) as <- by (apply (f_equal (fun x => x / nt)) in E2; rewrite !Nat.div_add_l, !Nat.div_small in E2 by lia; lia). split; [reflexivity|lia]. }
          apply (rad_in d nt N Hnt HN q q' Hq) in R1. apply (th_in d nt N Hnt HN it jt Hit Hjt) in T1. destruct T1 as [b [Hb [T1 T2]]].
          exists (Nat.max (c1 + q) (c1 + q') - d), b. rewrite !touches_tensor by assumption. split; [lia|]. split; [exact Hb|]. split; (split; [lia|assumption]).
        * intros [a [b [Ha [Hb [T1 T2]]]]]. rewrite touches_tensor in T1, T2 by assumption. right. apply tensor_in. exists q', jt. split; [reflexivity|].
          split; [apply (rad_in d nt N Hnt HN q q' Hq); lia|]. apply (th_in d nt N Hnt HN it jt Hit Hjt). exists b. tauto.
  Qed.
  Lemma row_lt i j : i < n -> In j (rw i) -> j < n.
  Proof.
    intros Hi Hj. pose proof Hnt as Hnt'. pose proof HN as HN'. destruct (lt_dec i ns) as [Li|Li].
    - rewrite (row_sing ns d nt N Hnt HN) in Hj by exact Li. apply in_seq in Hj. assert (d * nt <= N * nt) by (apply Nat.mul_le_mono_r; lia). lia.
    - destruct (split_index i ltac:(lia) Hi) as [q [it [Hq [Hit ->]]]]. rewrite (row_tensor ns d nt N Hnt HN) in Hj by exact Hit. apply in_app_iff in Hj. destruct Hj as [H1|H1].
      + unfold sing_part in H1. destruct (q <? d); [apply in_seq in H1; lia|destruct H1].
      + apply tensor_in in H1. destruct H1 as [q' [jt [-> [R1 T1]]]]. apply (rad_in d nt N Hnt HN q q' Hq) in R1.
        pose proof (th_lt d nt N Hnt HN it jt Hit T1). apply row_index; lia.
  Qed.
  Notation nnzl := (map (nnz_at p) (seq 0 (n + 1))).
  Notation cols := (map (colF p) (seq 0 (up n))).
  Lemma nnz_nth i : i <= n -> nth i nnzl 0%Z = z (up i).
  Proof. intros H. rewrite (nth_indep _ 0%Z (nnz_at p 0)) by (rewrite map_length, seq_length; lia). rewrite map_nth, seq_nth by lia. reflexivity. Qed.
  Lemma col_nth k : k < up n -> nth k cols None = colF p k.
  Proof. intros H. rewrite (nth_indep _ None (colF p 0)) by (rewrite map_length, seq_length; lia). rewrite map_nth, seq_nth by lia. reflexivity. Qed.
  Lemma col_at i m : i < n -> m < length (rw i) -> nth (up i + m) cols None = Some (z (nth m (rw i) 0)).
  Proof. intros H1 H2. rewrite col_nth by (apply in_range; assumption). apply colF_at; assumption. Qed.
  Lemma cols_len : length cols = up n.
  Proof. rewrite map_length, seq_length. reflexivity. Qed.
  Lemma pattern_ok : csr_pattern (n_interior p) (share_cell p) nnzl cols.
  Proof.
    assert (EN : n_interior p = n) by reflexivity. rewrite EN.
    constructor.
    - rewrite map_length, seq_length. reflexivity.
    - rewrite nnz_nth by lia. reflexivity.
    - rewrite nnz_nth, cols_len by lia. reflexivity.
    - intros i Hi. rewrite !nnz_nth by lia. pose proof (upto_le nat rw i (i + 1) ltac:(lia)). lia.
    - intros k Hk. rewrite cols_len in Hk. destruct (upto_find nat rw n k Hk) as [i [m [Hi [Hm ->]]]]. exists (nth m (rw i) 0).
      split; [apply (row_lt i); [exact Hi|apply nth_In; exact Hm]|]. apply col_at; assumption.
    - intros i k k' j j' Hi H1 H2 H3. rewrite nnz_nth in H1 by lia. rewrite nnz_nth in H3 by lia. replace (i + 1) with (S i) in H3 by lia. rewrite upto_S in H3.
      replace k with (up i + (k - up i)) by lia. replace k' with (up i + (k' - up i)) by lia. rewrite !col_at by lia.
      intros [= <-] [= <-]. pose proof (row_inc i Hi (k - up i) (k' - up i) ltac:(lia) ltac:(lia)). lia.
    - intros i j Hi Hj. rewrite <- row_in by assumption. rewrite !nnz_nth by lia. replace (i + 1) with (S i) by lia. rewrite upto_S. split.
      + intros H. apply (In_nth _ _ 0) in H. destruct H as [m [Hm E]]. exists (up i + m). split; [lia|]. rewrite col_at, E by assumption. reflexivity.
      + intros [k [Hk E]]. replace k with (up i + (k - up i)) in E by lia. rewrite col_at in E by lia. injection E as E. apply Nat2Z.inj in E. rewrite <- E. apply nth_In. lia.
  Qed.
End Csr.
Theorem pattern_theorem p : fem_sizes p -> exists nnz cols, csr_pattern (n_interior p) (share_cell p) nnz cols /\
  forall sched, any_order sched -> setup_sparse_matrix p sched = Ok (nnz, cols).
Proof.
  intros HS. do 2 eexists. split; [apply (pattern_ok p HS)|]. intros sched HO. exact (setup_ok p sched HS HO).
Qed.
