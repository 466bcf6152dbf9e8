(** The values written by the parallel loops. *)
From Coq Require Import ZifyBool.
From Verif Require Import Lib DerivModel QuadModel FemModel FemSolve QuadProofs PspModel PspProofs PpfModel PpfSpec PpfRows PpfPattern PpfCsr.
Open Scope nat_scope.

Section Asm.
  Variables (p : pfem) (sched : schedule) (eqn : equation) (E : nat -> nat -> R).
  Hypothesis HS : fem_sizes p.
  Hypothesis HO : any_order sched.
  Notation ns := (pf_ns p).
  Notation d := (pf_d p).
  Notation nt := (pf_nt p).
  Notation N := (pf_nr p).
  Notation c1 := (pf_c1 p).
  Notation z := Z.of_nat.
  Notation rw := (row ns d nt N).
  Notation up := (upto nat rw).
  Notation n := (ns + N * nt).
  Notation nnzl := (map (nnz_at p) (seq 0 (n + 1))).
  Notation cols := (map (colF p) (seq 0 (up n))).
  Hypothesis HSS : forall i j, i < ns -> j < ns -> sing_sing_element p eqn (z i) (z j) = Ok (E i j).
  Hypothesis HST : forall i q jt, i < ns -> q < d -> jt < nt -> sing_tensor_element p eqn (z i) (z (ns + q * nt + jt)) = Ok (E i (ns + q * nt + jt)).
  Hypothesis HTT : forall q1 it q2 jt, q1 < N -> q2 < N -> q1 <= q2 + d -> q2 <= q1 + d -> it < nt -> jt < nt ->
    (exists b, b < nt /\ near d nt it b /\ near d nt jt b) ->
    stencil_element p eqn (z (c1 + q1), z it) (z (c1 + q2), z jt) = Ok (E (ns + q1 * nt + it) (ns + q2 * nt + jt)).
  Hypothesis HSYM : forall i j, E i j = E j i.

  Definition valF (k : nat) : option R :=
    let ij := nth k (flat_map (fun i => map (pair i) (rw i)) (seq 0 n)) (0, 0) in Some (E (fst ij) (snd ij)).
  Lemma up_pair i : upto (nat * nat) (fun i => map (pair i) (rw i)) i = up i.
  Proof. induction i as [|i IH]; [reflexivity|]. rewrite !upto_S, IH, map_length. reflexivity. Qed.
  Lemma valF_at i m : i < n -> m < length (rw i) -> valF (up i + m) = Some (E i (nth m (rw i) 0)).
  Proof.
    intros H1 H2. unfold valF. rewrite <- up_pair. rewrite (concat_nth (nat * nat) (0, 0) (fun i => map (pair i) (rw i))) by (rewrite ?map_length; assumption).
    rewrite (nth_indep _ (0, 0) (i, 0)) by (rewrite map_length; exact H2). rewrite map_nth. reflexivity.
  Qed.
  Lemma val_sing_sing_ok k c : k < ns * ns -> length c = up n ->
    exists c', val_sing_sing p eqn nnzl k c = Ok c' /\ wrote None valF (fun i => i = up (k / ns) + k mod ns) c c'.
  Proof.
    intros Hk HL. destruct (div_lt k ns ns Hk) as [H1 [H2 _]]. unfold val_sing_sing. rewrite HSS by assumption. cbn [bind]. rewrite rd_nnz by lia. cbn [bind]. rewrite <- Nat2Z.inj_add.
    assert (HR : length (rw (k / ns)) = ns + d * nt) by (rewrite (row_sing ns d nt N (H_nt p HS) (H_N p HS)), seq_length by exact H1; reflexivity).
    apply wrote_one; [rewrite HL; apply in_range; lia|]. rewrite valF_at by lia. rewrite (row_sing ns d nt N (H_nt p HS) (H_N p HS)), seq_nth by lia. reflexivity.
  Qed.
  Lemma val_sing_tensor_ok k c : k < ns * (d * nt) -> length c = up n ->
    exists c', val_sing_tensor p eqn nnzl k c = Ok c' /\
      wrote None valF (fun i => i = up (k / (d * nt)) + (k mod (d * nt) + ns) \/ i = up (k mod (d * nt) + ns) + k / (d * nt)) c c'.
  Proof.
    intros Hk HL. pose proof (H_nt p HS) as Hnt. pose proof (H_N p HS) as HN. destruct (div_lt k ns (d * nt) Hk) as [H1 [H2 _]]. unfold val_sing_tensor. cbv zeta.
    set (r := k / (d * nt)) in *. set (t := k mod (d * nt)) in *.
    assert (HR : length (rw r) = ns + d * nt) by (rewrite (row_sing ns d nt N Hnt HN), seq_length by exact H1; reflexivity).
    destruct (div_lt t d nt H2) as [H3 [H4 H5]]. set (q := t / nt) in *. set (it := t mod nt) in *.
    assert (EI : t + ns = ns + q * nt + it) by lia. pose proof (row_index p q it ltac:(lia) H4) as HI.
    pose proof (HST r q it H1 H3 H4) as X. rewrite <- EI in X. rewrite X. cbn [bind]. clear X.
    rewrite rd_nnz by lia. cbn [bind]. rewrite <- Nat2Z.inj_add.
    destruct (wrote_one None valF c (up r + (t + ns)) (Some (E r (t + ns)))) as [c1' [E1 W1]].
    { rewrite HL. apply in_range; lia. }
    { rewrite valF_at by lia. rewrite (row_sing ns d nt N Hnt HN), seq_nth by lia. reflexivity. }
    rewrite E1. cbn [bind]. rewrite rd_nnz by lia. cbn [bind]. rewrite <- Nat2Z.inj_add.
    assert (HW : weight ns d N q = ns + (d + q + 1) * (2 * d + 1)) by (apply (weight_inner ns d nt N Hnt HN); lia).
    destruct (wrote_one None valF c1' (up (t + ns) + r) (Some (E r (t + ns)))) as [c2' [E2 W2]].
    { rewrite (proj1 W1), HL. apply in_range; [lia|]. rewrite EI, (row_tensor_len ns d nt N Hnt HN) by assumption. lia. }
    { rewrite valF_at; [|lia|rewrite EI, (row_tensor_len ns d nt N Hnt HN) by assumption; lia].
      rewrite (HSYM (t + ns)). f_equal. f_equal.
      rewrite EI, (row_tensor ns d nt N Hnt HN) by assumption. unfold sing_part. replace (q <? d) with true by lia. rewrite app_nth1 by (rewrite seq_length; lia). rewrite seq_nth by lia. reflexivity. }
    exists c2'. split; [exact E2|]. apply (wrote_trans _ _ _ _ _ _ _ W1 W2). intros; apply Nat.eq_dec.
  Qed.
  Lemma val_tensor_ok q it c : q < N -> it < nt -> length c = up n ->
    exists c', val_tensor_tensor p eqn nnzl cols (q * nt + it) c = Ok c' /\
      wrote None valF (fun i => up (ns + q * nt + it) + sing_off p q <= i < up (S (ns + q * nt + it))) c c'.
  Proof.
    intros Hq Hi HL. pose proof (H_nt p HS) as Hnt. pose proof (H_N p HS) as HN. pose proof (row_index p q it Hq Hi) as HI. unfold val_tensor_tensor.
    replace (ns + (q * nt + it)) with (ns + q * nt + it) by lia. rewrite two_d_at by exact Hi. cbn [bind fst]. rewrite rd_nnz by lia. cbn [bind].
    set (i := ns + q * nt + it) in *. replace (z i + 1)%Z with (z (S i)) by lia. rewrite rd_nnz by lia. cbn [bind].
    rewrite first_offset_at by exact HS. cbv zeta. rewrite upto_S.
    set (so := sing_off p q) in *. set (len := length (rw i) - so).
    assert (SO : so = length (sing_part ns d q)) by (rewrite sing_len; reflexivity).
    assert (RW : rw i = sing_part ns d q ++ tensor_part ns d nt N q it) by (apply (row_tensor ns d nt N Hnt HN); exact Hi).
    assert (LE : so <= length (rw i)) by (rewrite RW, app_length; lia).
    replace (Z.to_nat (z (up i + length (rw i)) - (z (up i) + z so))) with len by lia.
    destruct (for_res_inv (fun k (s : list (option R)) => wrote None valF (fun x => up i + so <= x < up i + so + k) c s) len
      (fun k v => let* col := rd cols (z (up i) + z so + z k) in
        match col with None => Ub | Some col => let* trial := to_2d p col in let* x := stencil_element p eqn (z (c1 + q), z it) trial in wr v (z (up i) + z so + z k) (Some x) end) c) as [c' [EC WC]].
    - split; [reflexivity|]. split; [intros x Hx; lia|reflexivity].
    - intros k s Hk WS. replace (z (up i) + z so + z k)%Z with (z (up i + (so + k))) by lia.
      assert (HM : so + k < length (rw i)) by lia.
      rewrite (rd_nth _ _ None) by (rewrite (cols_len p); apply in_range; assumption). cbn [bind]. rewrite (col_at p HS) by assumption.
      set (j := nth (so + k) (rw i) 0).
      assert (HT : In j (tensor_part ns d nt N q it)).
      { unfold j. rewrite RW, app_nth2 by lia. apply nth_In. rewrite RW, app_length in HM. lia. }
      apply (tensor_in p) in HT. destruct HT as [q' [jt [EJ [R1 T1]]]]. apply (rad_in d nt N Hnt HN q q' Hq) in R1.
      pose proof (th_lt d nt N Hnt HN it jt Hi T1) as Hj. apply (th_in d nt N Hnt HN it jt Hi Hj) in T1.
      rewrite EJ. rewrite two_d_at by exact Hj. cbn [bind]. rewrite HTT by (try exact T1; lia). cbn [bind].
      destruct (wrote_one None valF s (up i + (so + k)) (Some (E i j))) as [s' [ES WS']].
      { rewrite (proj1 WS), HL. apply in_range; assumption. }
      { apply valF_at; assumption. }
      unfold i in ES at 2. rewrite EJ in ES. exists s'. split; [exact ES|].
      eapply wrote_iff; [apply (wrote_trans _ _ _ _ _ _ _ WS WS'); intros; apply Nat.eq_dec|]. intros x; cbv beta; lia.
    - exists c'. split; [exact EC|]. eapply wrote_iff; [exact WC|]. intros x; cbv beta; lia.
  Qed.
  Lemma assemble_ok v : length v = up n -> assemble p eqn sched nnzl cols v = Ok (map valF (seq 0 (up n))).
  Proof.
    intros HV. pose proof (H_nt p HS) as Hnt. pose proof (H_N p HS) as HN. unfold assemble.
    destruct (par_writes None valF (fun k i => i = up (k / ns) + k mod ns) (up n) (val_sing_sing p eqn nnzl) (sched 7 (ns * ns)) v (fun _ => False)) as [s1 [E1 [L1 A1]]].
    { intros k s Hk HL. apply all_tasks in Hk; [|exact HO]. apply val_sing_sing_ok; assumption. }
    { intros; apply Nat.eq_dec. }
    { exact HV. }
    { intros i []. }
    rewrite E1. cbn [bind].
    destruct (fun HB DW => par_writes None valF (fun k i => i = up (k / (d * nt)) + (k mod (d * nt) + ns) \/ i = up (k mod (d * nt) + ns) + k / (d * nt)) (up n)
      (val_sing_tensor p eqn nnzl) (sched 8 (ns * (d * nt))) s1 _ HB DW L1 A1) as [s2 [E2 [L2 A2]]].
    { intros k s Hk HL. apply all_tasks in Hk; [|exact HO]. apply val_sing_tensor_ok; assumption. }
    { intros k i. destruct (Nat.eq_dec i (up (k / (d * nt)) + (k mod (d * nt) + ns))); [left; left; assumption|].
      destruct (Nat.eq_dec i (up (k mod (d * nt) + ns) + k / (d * nt))); [left; right; assumption|right; intros [?|?]; contradiction]. }
    rewrite E2. cbn [bind].
    destruct (fun HB DW => par_writes None valF (fun k i => up (ns + k) + sing_off p (k / nt) <= i < up (S (ns + k))) (up n)
      (val_tensor_tensor p eqn nnzl cols) (sched 9 (N * nt)) s2 _ HB DW L2 A2) as [s3 [E3 [L3 A3]]].
    { intros k s Hk HL. apply all_tasks in Hk; [|exact HO]. destruct (div_lt k N nt Hk) as [H1 [H2 H3]].
      pose proof (val_tensor_ok (k / nt) (k mod nt) s H1 H2 HL) as X. replace (ns + k / nt * nt + k mod nt) with (ns + k) in X by lia. rewrite <- H3 in X. exact X. }
    { intros k i. destruct (le_dec (up (ns + k) + sing_off p (k / nt)) i); destruct (lt_dec i (up (S (ns + k)))); try (left; lia); right; lia. }
    rewrite E3. f_equal. apply (agrees_all None valF _ (up n) s3 L3 A3).
    intros x Hx. destruct (upto_find nat rw n x Hx) as [i [m [Hi [Hm ->]]]].
    destruct (lt_dec i ns) as [Ls|Ls].
    - rewrite (row_sing ns d nt N Hnt HN), seq_length in Hm by exact Ls. destruct (lt_dec m ns) as [Lm|Lm].
      + left. left. right. exists (i * ns + m). rewrite all_tasks by exact HO. split; [nia|]. rewrite Nat.div_add_l, Nat.div_small, Nat.add_0_r by lia. rewrite (Nat.add_comm (i * ns) m), Nat.mod_add, Nat.mod_small by lia. lia.
      + left. right. assert (HB : m - ns < d * nt) by lia. exists (i * (d * nt) + (m - ns)). rewrite all_tasks by exact HO. split; [nia|]. left.
        rewrite Nat.div_add_l, Nat.div_small, Nat.add_0_r by lia. rewrite (Nat.add_comm (i * (d * nt))), Nat.mod_add, Nat.mod_small by lia. lia.
    - assert (Hk : i - ns < N * nt) by lia. destruct (div_lt (i - ns) N nt Hk) as [H1 [H2 H3]].
      set (q := (i - ns) / nt) in *. set (it := (i - ns) mod nt) in *. assert (EI : i = ns + q * nt + it) by lia.
      destruct (le_dec (sing_off p q) m) as [Lm|Lm].
      + right. exists (i - ns). rewrite all_tasks by exact HO. split; [exact Hk|]. fold q. replace (ns + (i - ns)) with i by lia. rewrite upto_S. lia.
      + left. right. unfold sing_off in Lm. destruct (q <? d) eqn:Eq; [|lia]. assert (HB : i - ns < d * nt) by (assert ((q + 1) * nt <= d * nt) by (apply Nat.mul_le_mono_r; lia); lia).
        exists (m * (d * nt) + (i - ns)). rewrite all_tasks by exact HO. split; [nia|]. right.
        rewrite Nat.div_add_l, Nat.div_small, Nat.add_0_r by lia. rewrite (Nat.add_comm (m * (d * nt))), Nat.mod_add, Nat.mod_small by lia. replace (i - ns + ns) with i by lia. lia.
  Qed.
  (** the matrix stored *)
  Hypothesis HOFF : forall i j, i < n -> j < n -> ~ In j (rw i) -> E i j = 0%R.
  Lemma vals_nth k : k < up n -> nth k (map valF (seq 0 (up n))) None = valF k.
  Proof. intros H. rewrite (nth_indep _ None (valF 0)) by (rewrite map_length, seq_length; lia). rewrite map_nth, seq_nth by lia. reflexivity. Qed.
  Lemma element_ok i j : i < n -> j < n -> csr_element nnzl cols (map valF (seq 0 (up n))) i j = E i j.
  Proof.
    intros Hi Hj. unfold csr_element. replace (i + 1) with (S i) by lia. rewrite (cols_len p), (nnz_nth p HS i), (nnz_nth p HS (S i)) by lia. rewrite upto_S.
    pose proof (upto_le nat rw (S i) n Hi) as L. rewrite upto_S in L.
    destruct (in_dec Nat.eq_dec j (rw i)) as [Hin|Hin].
    - apply (In_nth _ _ 0) in Hin. destruct Hin as [m [Hm EM]].
      rewrite (Rsum_single (up n) _ (up i + m)).
      + replace (_ && _)%bool with true by lia. rewrite (col_at p HS), vals_nth, valF_at by (try apply in_range; assumption). rewrite EM, Z.eqb_refl. reflexivity.
      + lia.
      + intros k Hk NE. destruct (_ && _)%bool eqn:C; [|reflexivity]. replace k with (up i + (k - up i)) by lia.
        rewrite (col_at p HS) by (try assumption; lia). rewrite vals_nth by lia. unfold valF. destruct (Z.eqb_spec (z (nth (k - up i) (rw i) 0)) (z j)) as [Q|Q]; [|reflexivity].
        exfalso. apply Nat2Z.inj in Q. rewrite <- EM in Q. pose proof (row_inc p HS i Hi) as INC.
        assert (k - up i < m \/ m < k - up i) as [Y|Y] by lia; [pose proof (INC (k - up i) m Y Hm)|pose proof (INC m (k - up i) Y ltac:(lia))]; lia.
    - rewrite HOFF by assumption. apply Rsum_zero. intros k Hk. destruct (_ && _)%bool eqn:C; [|reflexivity]. replace k with (up i + (k - up i)) by lia.
      rewrite (col_at p HS) by (try assumption; lia). rewrite vals_nth by lia. unfold valF. destruct (Z.eqb_spec (z (nth (k - up i) (rw i) 0)) (z j)) as [Q|Q]; [|reflexivity].
      exfalso. apply Nat2Z.inj in Q. apply Hin. rewrite <- Q. apply nth_In. lia.
  Qed.
End Asm.
