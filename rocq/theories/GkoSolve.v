(** The solve methods of the batched iterative solvers (C112). *)
From Coq Require Import Permutation ZifyBool.
From Verif Require Import GkoSpec.
From Verif Require Export GkoProofs.
Open Scope nat_scope.

Lemma holds_load m v batch n F : contiguous v batch n -> holds m v F ->
  exists f, load_all m (mv_addr (MVec (kv_data v) batch n)) (pairs batch n) = Ok f /\
    forall k, k < batch -> same_rows n (f k) (F k).
Proof.
  intros Hc Hh. destruct (load_all_ok m (mv_addr (MVec (kv_data v) batch n)) F (pairs batch n)) as (f & E & Hf).
  - intros i j Hin. apply in_pairs in Hin. rewrite mv_addr_contiguous by auto. destruct Hc as (E0 & E1 & _).
    apply Hh; lia.
  - exists f. split; auto. intros k Hk r Hr. apply Hf. now apply in_pairs.
Qed.

Lemma holds_load_view m v F : holds m v F ->
  exists f, load_all m (kv_addr v) (pairs (kv_e0 v) (kv_e1 v)) = Ok f /\
    forall i j, i < kv_e0 v -> j < kv_e1 v -> f i j = F i j.
Proof.
  intros Hh. destruct (load_all_ok m (kv_addr v) F (pairs (kv_e0 v) (kv_e1 v))) as (f & E & Hf).
  - intros i j Hin. apply in_pairs in Hin. now apply Hh.
  - exists f. split; auto. intros i j Hi Hj. apply Hf. now apply in_pairs.
Qed.

Lemma holds_store m v batch n F f : contiguous v batch n -> holds m v F ->
  exists m', store_all m (kv_addr v) (pairs batch n) f = Ok m' /\ holds m' v f /\ unchanged_outside v m m'.
Proof.
  intros Hc Hh. destruct (store_all_ok (kv_addr v) f (pairs batch n) m) as (m' & E & H1 & H2).
  - apply pairs_nodup.
  - intros p q. now apply (addr_inj v batch n).
  - intros i j Hin. apply in_pairs in Hin. destruct Hc as (E0 & E1 & _). rewrite Hh by lia. discriminate.
  - exists m'. split; auto. destruct Hc as (E0 & E1 & _). split.
    + intros i j Hi Hj. apply H1. apply in_pairs. lia.
    + intros a Ha. apply H2. intros i j Hin. apply in_pairs in Hin. apply Ha; lia.
Qed.

Lemma store_addr_ext m a a' f : (forall i j, a i j = a' i j) -> forall l, store_all m a l f = store_all m a' l f.
Proof.
  intros H l. revert m. induction l as [|[i j] l IH]; intros m; cbn; auto. rewrite H.
  destruct (store m (a' i j) (f i j)) as [m'| | |]; cbn; auto.
Qed.

Lemma holds_ext m v F G : (forall i j, i < kv_e0 v -> j < kv_e1 v -> F i j = G i j) -> holds m v F -> holds m v G.
Proof. intros H Hh i j Hi Hj. rewrite Hh by auto. now rewrite H. Qed.

Lemma deep_copy_ok mw w mv v batch n F G : contiguous w batch n -> kv_e0 v = batch -> kv_e1 v = n ->
  holds mw w G -> holds mv v F ->
  exists m', deep_copy mw w mv v = Ok m' /\ holds m' w F /\ unchanged_outside w mw m'.
Proof.
  intros Hw E0 E1 HG HF. unfold deep_copy, same_extents. pose proof Hw as (W0 & W1 & _).
  rewrite W0, W1, E0, E1, !Nat.eqb_refl. cbn [andb].
  destruct (holds_load_view mv v F HF) as (f & El & Hf). rewrite E0, E1 in El. rewrite El. cbn [bind].
  destruct (holds_store mw w batch n G f Hw HG) as (m' & Es & H1 & H2). rewrite Es. exists m'. repeat split; auto.
  eapply holds_ext; [|exact H1]. intros i j Hi Hj. apply Hf; lia.
Qed.

Lemma fresh_contiguous batch n : contiguous (fresh_view batch n) batch n.
Proof. repeat split. Qed.
Lemma fresh_holds batch n : holds (fresh_memory batch n) (fresh_view batch n) (fun _ _ => 0%R).
Proof.
  intros i j Hi Hj. cbn [fresh_view kv_e0 kv_e1] in *. unfold fresh_memory, kv_addr, fresh_view. cbn [kv_data kv_s0 kv_s1].
  assert (Hlt : i * n + j < batch * n) by nia. apply Nat2Z.inj_lt in Hlt. rewrite Nat2Z.inj_add, Nat2Z.inj_mul in Hlt.
  match goal with |- (if ?b then _ else _) = _ => replace b with true; auto end.
  assert (0 <= Z.of_nat i * Z.of_nat n)%Z by (apply Z.mul_nonneg_nonneg; lia). symmetry. apply andb_true_iff. split; [apply Z.leb_le|apply Z.ltb_lt]; lia.
Qed.

Lemma apply_batch_ok slv batch n mx mb x b X0 B : reads_rows n slv ->
  contiguous x batch n -> contiguous b batch n -> holds mx x X0 -> holds mb b B ->
  exists mx', apply_batch slv batch n mx mb (MVec (kv_data x) batch n) (MVec (kv_data b) batch n) =
    Ok (mx', map (fun k => an_iters (slv k (B k) (X0 k))) (seq 0 batch),
             map (fun k => an_resid (slv k (B k) (X0 k))) (seq 0 batch)) /\
    holds mx' x (fun k r => an_x (slv k (B k) (X0 k)) r) /\ unchanged_outside x mx mx'.
Proof.
  intros Hr Hx Hb HX HB. unfold apply_batch. cbn [mv_items mv_rows]. rewrite !Nat.eqb_refl. cbn [andb].
  destruct (holds_load mx x batch n X0 Hx HX) as (x0 & E1 & H1). rewrite E1. cbn [bind].
  destruct (holds_load mb b batch n B Hb HB) as (bs & E2 & H2). rewrite E2. cbn [bind].
  rewrite (store_addr_ext _ _ (kv_addr x)) by (intros; now apply mv_addr_contiguous).
  destruct (holds_store mx x batch n X0 (fun k r => an_x (slv k (bs k) (x0 k)) r) Hx HX) as (mx' & E3 & H3 & H4).
  rewrite E3. cbn [bind]. exists mx'. split; [|split; auto].
  - assert (Ha : forall k, k < batch -> same_answer n (slv k (bs k) (x0 k)) (slv k (B k) (X0 k))).
    { intros k Hk. apply Hr; auto. }
    assert (EI : map (fun k => an_iters (slv k (bs k) (x0 k))) (seq 0 batch) = map (fun k => an_iters (slv k (B k) (X0 k))) (seq 0 batch)).
    { apply map_ext_in. intros k Hk. apply in_seq in Hk. apply Ha. lia. }
    assert (ER : map (fun k => an_resid (slv k (bs k) (x0 k))) (seq 0 batch) = map (fun k => an_resid (slv k (B k) (X0 k))) (seq 0 batch)).
    { apply map_ext_in. intros k Hk. apply in_seq in Hk. apply Ha. lia. }
    now rewrite EI, ER.
  - eapply holds_ext; [|exact H3]. cbv beta. destruct Hx as (E0 & E5 & _). intros i j Hi Hj.
    destruct (Hr i (bs i) (B i) (x0 i) (X0 i)) as (Hs & _); [apply H2; lia|apply H1; lia|]. apply Hs. lia.
Qed.

Lemma save_logger_ok A x b mx mb tol batch n (ans : nat -> answer) B :
  contiguous x batch n -> contiguous b batch n -> holds mx x (fun k r => an_x (ans k) r) -> holds mb b B ->
  exists lg, save_logger A x b mx mb (map (fun k => an_iters (ans k)) (seq 0 batch))
     (map (fun k => an_resid (ans k)) (seq 0 batch)) tol = Ok lg /\ logs n A tol ans B (seq 0 batch) lg.
Proof.
  intros Hx Hb HX HB. unfold save_logger. rewrite (to_gko_ok x batch n Hx), (to_gko_ok b batch n Hb). cbn [bind mv_items mv_rows].
  destruct (holds_load mx x batch n _ Hx HX) as (xs & E1 & H1). rewrite E1. cbn [bind].
  destruct (holds_load mb b batch n B Hb HB) as (bs & E2 & H2). rewrite E2. cbn [bind].
  destruct Hx as (Ex & _). rewrite Ex. destruct Hb as (_ & Eb & _). rewrite Eb.
  apply (save_loop_ok n A xs bs _ _ tol ans B batch eq_refl eq_refl).
  intros k Hk. apply in_seq in Hk. split; [lia|]. split; [apply H1; lia|apply H2; lia].
Qed.

Lemma maybe_log_ok (with_logger : bool) A x b mx mb tol batch n (ans : nat -> answer) B :
  contiguous x batch n -> contiguous b batch n -> holds mx x (fun k r => an_x (ans k) r) -> holds mb b B ->
  exists lg, (if with_logger then save_logger A x b mx mb (map (fun k => an_iters (ans k)) (seq 0 batch))
     (map (fun k => an_resid (ans k)) (seq 0 batch)) tol else Ok []) = Ok lg /\
     (if with_logger then logs n A tol ans B (seq 0 batch) lg else lg = []).
Proof. intros. destruct with_logger; [now apply save_logger_ok|]. exists []. auto. Qed.

Lemma forall_resid (P : dbl -> Prop) (g : nat -> dbl) batch :
  Forall P (map g (seq 0 batch)) <-> forall k, k < batch -> P (g k).
Proof.
  rewrite Forall_forall. split.
  - intros H k Hk. apply H. apply in_map. apply in_seq. lia.
  - intros H x Hx. apply in_map_iff in Hx. destruct Hx as (k & <- & Hk). apply in_seq in Hk. apply H. lia.
Qed.
Lemma exists_resid (P : dbl -> Prop) (g : nat -> dbl) batch :
  Exists P (map g (seq 0 batch)) -> exists k, k < batch /\ P (g k).
Proof.
  rewrite Exists_exists. intros (x & Hx & HP). apply in_map_iff in Hx. destruct Hx as (k & <- & Hk). apply in_seq in Hk.
  exists k. split; [lia|auto].
Qed.

Section outcomes.
  Variables (slv : solver) (A : nat -> matrix) (batch n : nat) (tol : dbl) (with_logger : bool).
  Variable chunks : list (list nat).
  Hypothesis Hr : reads_rows n slv.
  Hypothesis Hd : distributes chunks batch.

  Lemma check_ok (ans : nat -> answer) :
    check_conv chunks tol (map (fun k => an_resid (ans k)) (seq 0 batch)) = Ok tt /\
      (forall k, k < batch -> at_most (an_resid (ans k)) tol) \/
    check_conv chunks tol (map (fun k => an_resid (ans k)) (seq 0 batch)) = Throw /\
      (exists k, k < batch /\ ~ at_most (an_resid (ans k)) tol).
  Proof.
    destruct (check_conv_ok chunks tol (map (fun k => an_resid (ans k)) (seq 0 batch))) as [[E H]|[E H]].
    - now rewrite map_length, seq_length.
    - left. split; auto. now apply (forall_resid (fun x => at_most x tol) (fun k => an_resid (ans k))).
    - right. split; auto. now apply (exists_resid (fun x => ~ at_most x tol) (fun k => an_resid (ans k))).
  Qed.

  Lemma ell_outcome b mb B : contiguous b batch n -> holds mb b B ->
    let ans k := slv k (B k) (B k) in
    let r := ell_solve slv A batch n tol with_logger chunks b mb in
    (r_out r = Ok tt /\ (forall k, k < batch -> at_most (an_resid (ans k)) tol) /\
       holds (r_mem r) b (fun k i => an_x (ans k) i) /\ unchanged_outside b mb (r_mem r) \/
     r_out r = Throw /\ (exists k, k < batch /\ ~ at_most (an_resid (ans k)) tol) /\ r_mem r = mb) /\
    (if with_logger then logs n A tol ans B (seq 0 batch) (r_log r) else r_log r = []).
  Proof.
    intros Hb HB ans r. unfold r, ell_solve. cbv zeta.
    pose proof Hb as (B0 & B1 & _).
    destruct (deep_copy_ok (fresh_memory batch n) (fresh_view batch n) mb b batch n B _ (fresh_contiguous batch n) B0 B1
      (fresh_holds batch n) HB) as (mx & E1 & H1 & _). rewrite E1. cbn [bindr].
    rewrite (to_gko_ok b batch n Hb), (to_gko_ok _ batch n (fresh_contiguous batch n)). cbn [bindr].
    destruct (apply_batch_ok slv batch n mx mb (fresh_view batch n) b B B Hr (fresh_contiguous batch n) Hb H1 HB)
      as (mx' & E2 & H2 & _). rewrite E2. cbn [bindr].
    destruct (maybe_log_ok with_logger A (fresh_view batch n) b mx' mb tol batch n ans B (fresh_contiguous batch n) Hb H2 HB)
      as (lg & E3 & HL). fold (ans 0). unfold ans in E3. rewrite E3. cbn [bindr].
    destruct (check_ok ans) as [[E4 H4]|[E4 H4]]; unfold ans in E4; rewrite E4; cbn [bindr].
    - destruct (deep_copy_ok mb b mx' (fresh_view batch n) batch n _ B Hb eq_refl eq_refl HB H2) as (mb' & E5 & H5 & H6).
      rewrite E5. cbn [bindr r_out r_mem r_log]. split; [left; auto|exact HL].
    - cbn [fail r_out r_mem r_log]. split; auto.
  Qed.

  Lemma csr_batch_outcome x mx X0 b mb B : contiguous x batch n -> contiguous b batch n -> holds mx x X0 -> holds mb b B ->
    let ans k := slv k (B k) (X0 k) in
    let r := csr_solve_batch slv A batch n tol with_logger chunks x mx b mb in
    (r_out r = Ok tt /\ (forall k, k < batch -> at_most (an_resid (ans k)) tol) \/
     r_out r = Throw /\ (exists k, k < batch /\ ~ at_most (an_resid (ans k)) tol)) /\
    holds (r_mem r) x (fun k i => an_x (ans k) i) /\ unchanged_outside x mx (r_mem r) /\
    (if with_logger then logs n A tol ans B (seq 0 batch) (r_log r) else r_log r = []).
  Proof.
    intros Hx Hb HX HB ans r. unfold r, csr_solve_batch.
    rewrite (to_gko_ok b batch n Hb), (to_gko_ok x batch n Hx). cbn [bindr].
    destruct (apply_batch_ok slv batch n mx mb x b X0 B Hr Hx Hb HX HB) as (mx' & E2 & H2 & H3). rewrite E2. cbn [bindr].
    destruct (maybe_log_ok with_logger A x b mx' mb tol batch n ans B Hx Hb H2 HB) as (lg & E3 & HL).
    unfold ans in E3. rewrite E3. cbn [bindr].
    destruct (check_ok ans) as [[E4 H4]|[E4 H4]]; unfold ans in E4; rewrite E4; cbn [bindr fail r_out r_mem r_log]; auto.
  Qed.

End outcomes.

(** *** one solver per system *)
Section single.
  Variables (slv : solver) (A : nat -> matrix) (batch n : nat) (tol : dbl) (with_logger : bool).
  Variable solvers : list solver.
  Hypothesis Hlen : batch <= length solvers.
  Hypothesis Hrs : Forall (reads_rows n) solvers.
  Definition nth_solver (k : nat) : solver := nth k solvers slv.

  Lemma in_row i j : In (i, j) (pairs 1 n) <-> i = 0 /\ j < n.
  Proof. rewrite in_pairs. lia. Qed.

  Lemma single_step x b mb B i l mx X lg : contiguous x batch n -> contiguous b batch n -> holds mb b B ->
    holds mx x X -> i < batch ->
    let ans := nth_solver i i (B i) (X i) in
    exists mx' e,
      csr_solve_loop A n tol with_logger solvers x b mb (i :: l) mx lg =
        (if negb (an_converged ans) then fail Throw mx' (lg ++ e)
         else csr_solve_loop A n tol with_logger solvers x b mb l mx' (lg ++ e)) /\
      holds mx' x (fun k r => if k =? i then an_x ans r else X k r) /\ unchanged_outside x mx mx' /\
      (if with_logger then entry n A tol i ans (B i) e else e = []).
  Proof.
    intros Hx Hb HB HX Hi ans. cbn [csr_solve_loop].
    rewrite (rd_some _ _ slv) by lia. cbn [bindr]. change (nth i solvers slv) with (nth_solver i).
    rewrite (to_gko_ok b batch n Hb), (to_gko_ok x batch n Hx). cbn [bindr mv_items mv_rows].
    replace (i <? batch) with true by lia. rewrite !Nat.eqb_refl. cbn [andb bindr].
    pose proof Hx as (X0 & X1 & _). pose proof Hb as (B0 & B1 & _).
    destruct (load_all_ok mb (fun _ r => mv_addr (MVec (kv_data b) batch n) i r) (fun _ r => B i r) (pairs 1 n)) as (bs & E1 & H1).
    { intros k r Hin. apply in_row in Hin. rewrite mv_addr_contiguous by auto. apply HB; lia. }
    rewrite E1. cbn [bindr].
    destruct (load_all_ok mx (fun _ r => mv_addr (MVec (kv_data x) batch n) i r) (fun _ r => X i r) (pairs 1 n)) as (x0 & E2 & H2).
    { intros k r Hin. apply in_row in Hin. rewrite mv_addr_contiguous by auto. apply HX; lia. }
    rewrite E2. cbn [bindr].
    assert (Hsa : same_answer n (nth_solver i i (bs 0) (x0 0)) ans).
    { unfold ans. assert (Hri : reads_rows n (nth_solver i)).
      { rewrite Forall_forall in Hrs. apply Hrs. apply nth_In. lia. }
      apply Hri; intros r Hrr; [apply H1|apply H2]; apply in_row; auto. }
    set (ans' := nth_solver i i (bs 0) (x0 0)) in *.
    destruct (store_all_ok (fun _ r => mv_addr (MVec (kv_data x) batch n) i r) (fun _ r => an_x ans' r) (pairs 1 n) mx)
      as (mx' & E3 & H3 & H4).
    { apply pairs_nodup. }
    { intros [k r] [k' r']. rewrite !in_row. cbn [fst snd]. unfold mv_addr. cbn [mv_data mv_rows]. intros [-> _] [-> _] E.
      f_equal. lia. }
    { intros k r Hin. apply in_row in Hin. rewrite mv_addr_contiguous by auto. rewrite HX by lia. discriminate. }
    rewrite E3. cbn [bindr].
    assert (HX' : holds mx' x (fun k r => if k =? i then an_x ans r else X k r)).
    { intros k r Hk Hrr. cbv beta. destruct (k =? i) eqn:Ek.
      - assert (k = i) by lia. subst k. rewrite <- (mv_addr_contiguous x batch n) by auto. rewrite (H3 0 r) by (apply in_row; lia).
        f_equal. apply Hsa. lia.
      - rewrite H4; [now apply HX|]. intros k' r' Hin Eq. apply in_row in Hin.
        rewrite mv_addr_contiguous in Eq by auto.
        assert (EP : (k, r) = (i, r')).
        { apply (addr_inj x batch n); auto; apply in_pairs; lia. }
        injection EP as -> _. lia. }
    assert (HU : unchanged_outside x mx mx').
    { intros a Ha. apply H4. intros k r Hin. apply in_row in Hin. rewrite mv_addr_contiguous by auto. apply Ha; lia. }
    assert (Hc : an_converged ans' = an_converged ans) by apply Hsa.
    destruct with_logger.
    - destruct (load_all_ok mx' (fun _ r => kv_addr x i r) (fun _ r => an_x ans r) (pairs 1 n)) as (xi & E5 & H5).
      { intros k r Hin. apply in_row in Hin. rewrite HX' by lia. now rewrite Nat.eqb_refl. }
      destruct (load_all_ok mb (fun _ r => kv_addr b i r) (fun _ r => B i r) (pairs 1 n)) as (bi & E6 & H6).
      { intros k r Hin. apply in_row in Hin. apply HB; lia. }
      rewrite E5. cbn [bind]. rewrite E6. cbn [bind bindr]. rewrite Hc.
      eexists mx', _. split; [reflexivity|]. split; auto. split; auto.
      unfold save_logger_single. cbv zeta.
      replace (an_iters ans') with (an_iters ans) by (symmetry; apply Hsa).
      replace (an_resid ans') with (an_resid ans) by (symmetry; apply Hsa).
      apply write_log_entry; intros r Hrr; [apply H5|apply H6]; apply in_row; auto.
    - cbn [bindr]. rewrite Hc. exists mx', []. auto.
  Qed.

  Lemma logs_snoc (ans : nat -> answer) B l k lg e : logs n A tol ans B l lg -> entry n A tol k (ans k) (B k) e ->
    logs n A tol ans B (l ++ [k]) (lg ++ e).
  Proof.
    intros (es & -> & HF) He. exists (es ++ [e]). split; [rewrite concat_app; cbn; now rewrite app_nil_r|].
    apply Forall2_app; auto.
  Qed.

  Lemma seq_split i m : seq 0 (i + m) = seq 0 i ++ seq i m.
  Proof. apply seq_app. Qed.

  Lemma single_loop x b mb B X0 : contiguous x batch n -> contiguous b batch n -> holds mb b B ->
    let ans k := nth_solver k k (B k) (X0 k) in
    forall m i mx lg, i + m = batch -> holds mx x (fun k r => if k <? i then an_x (ans k) r else X0 k r) ->
    (forall k, k < i -> an_converged (ans k) = true) ->
    (if with_logger then logs n A tol ans B (seq 0 i) lg else lg = []) ->
    let r := csr_solve_loop A n tol with_logger solvers x b mb (seq i m) mx lg in
    exists done, done <= batch /\
      (r_out r = Ok tt /\ done = batch /\ (forall k, k < batch -> an_converged (ans k) = true) \/
       r_out r = Throw /\ 0 < done /\ an_converged (ans (done - 1)) = false /\
         (forall k, k < done - 1 -> an_converged (ans k) = true)) /\
      holds (r_mem r) x (fun k r => if k <? done then an_x (ans k) r else X0 k r) /\
      unchanged_outside x mx (r_mem r) /\
      (if with_logger then logs n A tol ans B (seq 0 done) (r_log r) else r_log r = []).
  Proof.
    intros Hx Hb HB ans. induction m as [|m IH]; intros i mx lg Him HX Hconv HL r.
    - cbn in r. unfold r. exists batch. replace i with batch in * by lia. cbn [r_out r_mem r_log].
      split; auto. split; [left; auto|]. split; auto. split; auto. intros a _. reflexivity.
    - cbn [seq] in r. unfold r.
      destruct (single_step x b mb B i (seq (S i) m) mx _ lg Hx Hb HB HX ltac:(lia)) as (mx' & e & E & HX' & HU & He).
      cbv beta in E, HX', He. rewrite Nat.ltb_irrefl in E, HX', He. rewrite E.
      change (nth_solver i i (B i) (fun r : nat => X0 i r)) with (ans i) in *.
      assert (HX'' : holds mx' x (fun k r => if k <? S i then an_x (ans k) r else X0 k r)).
      { eapply holds_ext; [|exact HX']. intros k q _ _. cbv beta. destruct (k =? i) eqn:Ek.
        - assert (k = i) by lia. subst k. replace (i <? S i) with true by lia. reflexivity.
        - destruct (k <? i) eqn:E1; [replace (k <? S i) with true by lia|replace (k <? S i) with false by lia]; reflexivity. }
      assert (HL' : if with_logger then logs n A tol ans B (seq 0 (S i)) (lg ++ e) else lg ++ e = []).
      { destruct with_logger; [|subst; auto]. rewrite seq_S. apply logs_snoc; auto. }
      destruct (an_converged (ans i)) eqn:Ec; cbn [negb].
      + destruct (IH (S i) mx' (lg ++ e)) as (dn & D1 & D2 & D3 & D4 & D5); auto; [lia| |].
        * intros k Hk. destruct (Nat.eq_dec k i) as [->|]; auto. apply Hconv. lia.
        * exists dn. split; [exact D1|]. split; [exact D2|]. split; [exact D3|]. split; [|exact D5].
          intros a Ha. rewrite D4 by auto. now apply HU.
      + exists (S i). cbn [fail r_out r_mem r_log]. split; [lia|]. split; [|split; [exact HX''|split; [exact HU|exact HL']]].
        right. split; [reflexivity|]. split; [lia|]. replace (S i - 1) with i by lia. auto.
  Qed.

  Lemma csr_single_outcome x mx X0 b mb B : contiguous x batch n -> contiguous b batch n -> holds mx x X0 -> holds mb b B ->
    let ans k := nth_solver k k (B k) (X0 k) in
    let r := csr_solve_single A batch n tol with_logger solvers x mx b mb in
    exists done, done <= batch /\
      (r_out r = Ok tt /\ done = batch /\ (forall k, k < batch -> an_converged (ans k) = true) \/
       r_out r = Throw /\ 0 < done /\ an_converged (ans (done - 1)) = false /\
         (forall k, k < done - 1 -> an_converged (ans k) = true)) /\
      holds (r_mem r) x (fun k r => if k <? done then an_x (ans k) r else X0 k r) /\
      unchanged_outside x mx (r_mem r) /\
      (if with_logger then logs n A tol ans B (seq 0 done) (r_log r) else r_log r = []).
  Proof.
    intros Hx Hb HX HB ans r. unfold r, csr_solve_single.
    apply (single_loop x b mb B X0 Hx Hb HB batch 0 mx []); auto.
    - intros k Hk. lia.
    - destruct with_logger; auto. exists []. split; auto. constructor.
  Qed.
End single.

(** solve(b) in place, for any of the two kinds of solve(x, b) *)
Lemma csr_in_place batch n solve2 b mb B (F : nat -> nat -> R) : contiguous b batch n -> holds mb b B ->
  (forall mx, holds mx (fresh_view batch n) B ->
     let r := solve2 (fresh_view batch n) mx b mb in
     r_out r = Throw \/ r_out r = Ok tt /\ holds (r_mem r) (fresh_view batch n) F) ->
  let r := csr_solve batch n solve2 b mb in
  exists mx, holds mx (fresh_view batch n) B /\
    r_out r = r_out (solve2 (fresh_view batch n) mx b mb) /\
    r_log r = r_log (solve2 (fresh_view batch n) mx b mb) /\
    (r_out r = Throw /\ r_mem r = mb \/
     r_out r = Ok tt /\ holds (r_mem r) b F /\ unchanged_outside b mb (r_mem r)).
Proof.
  intros Hb HB Hs r. unfold r, csr_solve. cbv zeta. pose proof Hb as (B0 & B1 & _).
  destruct (deep_copy_ok (fresh_memory batch n) (fresh_view batch n) mb b batch n B _ (fresh_contiguous batch n) B0 B1
    (fresh_holds batch n) HB) as (mx & E1 & H1 & _). rewrite E1. cbn [bindr]. exists mx. split; auto.
  destruct (Hs mx H1) as [E|[E HF]]; rewrite E.
  - cbn [r_out r_log r_mem]. auto.
  - destruct (deep_copy_ok mb b (r_mem (solve2 (fresh_view batch n) mx b mb)) (fresh_view batch n) batch n F B Hb eq_refl eq_refl HB HF)
      as (mb' & E5 & H5 & H6). rewrite E5. cbn [bindr r_out r_mem r_log]. split; auto.
Qed.
