(** C112: batched iterative solves (MatrixBatchEll, MatrixBatchCsr) and their convergence reports. *)
From Coq Require Import Permutation.
From Verif Require Import GkoSpec GkoProofs GkoSolve GkoExamples.
Open Scope nat_scope.

(** The convergence check throws exactly when some reported residual norm is not at most the tolerance
    (in particular when it is NaN), however the systems are distributed over the threads. *)
Theorem C112_check_conv : forall chunks tol resid, distributes chunks (length resid) ->
  check_conv chunks tol resid = Ok tt /\ Forall (fun x => at_most x tol) resid \/
  check_conv chunks tol resid = Throw /\ Exists (fun x => ~ at_most x tol) resid.
Proof. exact check_conv_ok. Qed.
Print Assumptions C112_check_conv.
Example C112_check_conv_ex : distributes [[2]; []; [0; 1]] (length [Fin 0; MInf; NaN]) /\
  check_conv [[2]; []; [0; 1]] PInf [Fin 0; MInf; NaN] = Throw /\
  check_conv [[2]; []; [0; 1]] PInf [Fin 0; MInf; Fin 7] = Ok tt.
Proof.
  split; [|split; reflexivity].
  unfold distributes. cbn. apply (Permutation_app_comm [2] [0; 1]).
Qed.

(** MatrixBatchEll::solve: either all the reported residual norms are at most the tolerance and b holds
    the solver's solutions (nothing else changes), or an exception is thrown and b is as it was.  With the
    logger the file gets one entry per system, in order, with the true residual || A x - b || and the
    warning exactly when it is not at most the tolerance. *)
Theorem C112_ell_solve : forall slv A batch n tol with_logger chunks b mb B,
  reads_rows n slv -> distributes chunks batch -> contiguous b batch n -> holds mb b B ->
  let ans k := slv k (B k) (B k) in
  let r := ell_solve slv A batch n tol with_logger chunks b mb in
  (r_out r = Ok tt /\ (forall k, k < batch -> at_most (an_resid (ans k)) tol) /\
     holds (r_mem r) b (fun k i => an_x (ans k) i) /\ unchanged_outside b mb (r_mem r) \/
   r_out r = Throw /\ (exists k, k < batch /\ ~ at_most (an_resid (ans k)) tol) /\ r_mem r = mb) /\
  (if with_logger then logs n A tol ans B (seq 0 batch) (r_log r) else r_log r = []).
Proof. intros slv A batch n tol wl chunks b mb B Hr Hd. exact (ell_outcome slv A batch n tol wl chunks Hr Hd b mb B). Qed.
Print Assumptions C112_ell_solve.

(** With a solver which reports the norm of the residual, a solve which returns leaves in b solutions of
    all the systems up to the tolerance. *)
Theorem C112_ell_solution : forall slv A batch n t with_logger chunks b mb B,
  reads_rows n slv -> honest n A slv -> distributes chunks batch -> contiguous b batch n -> holds mb b B ->
  let r := ell_solve slv A batch n (Fin t) with_logger chunks b mb in
  r_out r = Ok tt ->
  exists X, holds (r_mem r) b X /\ forall k, k < batch -> (residual n (A k) (X k) (B k) <= t)%R.
Proof.
  intros slv A batch n t wl chunks b mb B Hr Hh Hd Hc HB r E.
  destruct (ell_outcome slv A batch n (Fin t) wl chunks Hr Hd b mb B Hc HB) as [[(_ & H1 & H2 & _)|(E' & _)] _].
  - eexists. split; [exact H2|]. intros k Hk. specialize (H1 k Hk). cbv beta in H1. rewrite Hh in H1. exact H1.
  - unfold r in E. rewrite E in E'. discriminate.
Qed.
Print Assumptions C112_ell_solution.
Example C112_ell_ex :
  reads_rows 1 (ex_solver 1 ex_id 2 guess_plus) /\ honest 1 ex_id (ex_solver 1 ex_id 2 guess_plus) /\
  distributes [[0]] 1 /\ contiguous ex_b 1 1 /\ holds (ex_mem 1000) ex_b (fun _ _ => 1000%R) /\
  r_out (ell_solve (ex_solver 1 ex_id 2 guess_plus) ex_id 1 1 (Fin 2) true [[0]] ex_b (ex_mem 1000)) = Ok tt.
Proof.
  split; [apply ex_plus_reads|]. split; [apply ex_honest|]. split; [apply Permutation_refl|].
  split; [apply ex_contiguous|]. split; [apply ex_holds|].
  destruct (C112_ell_solve (ex_solver 1 ex_id 2 guess_plus) ex_id 1 1 (Fin 2) true [[0]] ex_b (ex_mem 1000)
    (fun _ _ => 1000%R) (ex_plus_reads 2) (Permutation_refl _) ex_contiguous (ex_holds 1000)) as [[(E & _)|(_ & (k & Hk & Hn) & _)] _]; auto.
  exfalso. apply Hn. assert (k = 0) by lia. subst k. cbn [an_resid ex_solver at_most].
  rewrite ex_residual. unfold guess_plus. replace (1000 + 1 - 1000)%R with 1%R by ring. rewrite Rabs_R1. lra.
Qed.

(** MatrixBatchCsr::solve(x, b) with a batch solver: same rule for the outcome; x holds the last iterates
    in both cases and only x changes. *)
Theorem C112_csr_batch_solve : forall slv A batch n tol with_logger chunks x mx X0 b mb B,
  reads_rows n slv -> distributes chunks batch -> contiguous x batch n -> contiguous b batch n ->
  holds mx x X0 -> holds mb b B ->
  let ans k := slv k (B k) (X0 k) in
  let r := csr_solve_batch slv A batch n tol with_logger chunks x mx b mb in
  (r_out r = Ok tt /\ (forall k, k < batch -> at_most (an_resid (ans k)) tol) \/
   r_out r = Throw /\ (exists k, k < batch /\ ~ at_most (an_resid (ans k)) tol)) /\
  holds (r_mem r) x (fun k i => an_x (ans k) i) /\ unchanged_outside x mx (r_mem r) /\
  (if with_logger then logs n A tol ans B (seq 0 batch) (r_log r) else r_log r = []).
Proof.
  intros slv A batch n tol wl chunks x mx X0 b mb B Hr Hd Hx Hb HX HB.
  exact (csr_batch_outcome slv A batch n tol wl chunks Hr Hd x mx X0 b mb B Hx Hb HX HB).
Qed.
Print Assumptions C112_csr_batch_solve.
Example C112_csr_batch_ex :
  r_out (csr_solve_batch (ex_solver 1 ex_id 2 guess_plus) ex_id 1 1 NaN false [[0]] ex_b (ex_mem 5) ex_b (ex_mem 7)) = Throw /\
  holds (r_mem (csr_solve_batch (ex_solver 1 ex_id 2 guess_plus) ex_id 1 1 NaN false [[0]] ex_b (ex_mem 5) ex_b (ex_mem 7)))
    ex_b (fun _ _ => (7 + 1)%R).
Proof.
  destruct (C112_csr_batch_solve (ex_solver 1 ex_id 2 guess_plus) ex_id 1 1 NaN false [[0]] ex_b (ex_mem 5) (fun _ _ => 5%R)
    ex_b (ex_mem 7) (fun _ _ => 7%R) (ex_plus_reads 2) (Permutation_refl _) ex_contiguous ex_contiguous (ex_holds 5) (ex_holds 7))
    as ([(_ & H)|(E & _)] & H2 & _).
  - destruct (H 0 (Nat.lt_0_succ 0)).
  - split; [exact E|exact H2].
Qed.

(** MatrixBatchCsr::solve(x, b) with one solver per system: the systems are solved in order up to the
    first one whose solver does not converge; then an exception is thrown.  x holds the last iterates of
    the systems which were attempted, the other initial guesses are unchanged, the log has one entry per
    attempted system.  (Only the first [batch] solvers matter: repeated calls of setup_solver only append
    to the vector.) *)
Theorem C112_csr_single_solve : forall dflt A batch n tol with_logger solvers x mx X0 b mb B,
  batch <= length solvers -> Forall (reads_rows n) solvers -> contiguous x batch n -> contiguous b batch n ->
  holds mx x X0 -> holds mb b B ->
  let ans k := nth k solvers dflt k (B k) (X0 k) in
  let r := csr_solve_single A batch n tol with_logger solvers x mx b mb in
  exists done, done <= batch /\
    (r_out r = Ok tt /\ done = batch /\ (forall k, k < batch -> an_converged (ans k) = true) \/
     r_out r = Throw /\ 0 < done /\ an_converged (ans (done - 1)) = false /\
       (forall k, k < done - 1 -> an_converged (ans k) = true)) /\
    holds (r_mem r) x (fun k r => if k <? done then an_x (ans k) r else X0 k r) /\
    unchanged_outside x mx (r_mem r) /\
    (if with_logger then logs n A tol ans B (seq 0 done) (r_log r) else r_log r = []).
Proof.
  intros dflt A batch n tol wl solvers x mx X0 b mb B Hl Hs Hx Hb HX HB.
  exact (csr_single_outcome dflt A batch n tol wl solvers Hl Hs x mx X0 b mb B Hx Hb HX HB).
Qed.
Print Assumptions C112_csr_single_solve.

(** In place: if solve(b) throws, b is as it was; if it returns with solvers which stop as documented,
    b holds solutions with || A x - b || <= tol || b ||. *)
Theorem C112_csr_single_in_place : forall A batch n t tol with_logger solvers b mb B,
  batch <= length solvers -> Forall (fun s => reads_rows n s /\ reduction_factor n A t s) solvers ->
  contiguous b batch n -> holds mb b B ->
  let r := csr_solve batch n (csr_solve_single A batch n tol with_logger solvers) b mb in
  r_out r = Throw /\ r_mem r = mb \/
  r_out r = Ok tt /\ unchanged_outside b mb (r_mem r) /\
  exists X, holds (r_mem r) b X /\ forall k, k < batch -> (residual n (A k) (X k) (B k) <= t * norm n (B k))%R.
Proof.
  intros A batch n t tol wl solvers b mb B Hl Hs Hb HB r.
  set (d := ex_solver n A t (fun v => v)).
  assert (Hs1 : Forall (reads_rows n) solvers) by (eapply Forall_impl; [|exact Hs]; intros s [HH _]; exact HH).
  set (X := fun k => an_x (nth k solvers d k (B k) (B k))).
  destruct (csr_in_place batch n (csr_solve_single A batch n tol wl solvers) b mb B X Hb HB) as (mx & Hmx & E1 & E2 & HH).
  - intros mx Hmx. cbv zeta.
    destruct (csr_single_outcome d A batch n tol wl solvers Hl Hs1 _ mx B b mb B (fresh_contiguous batch n) Hb Hmx HB)
      as (dn & D1 & D2 & D3 & _). destruct D2 as [(Eo & -> & Hc)|(Eo & _)]; [right|left; exact Eo]. split; auto.
    eapply holds_ext; [|exact D3]. intros i j Hi Hj. cbn in Hi. cbv beta. now rewrite (proj2 (Nat.ltb_lt i batch) Hi).
  - fold r in E1, E2, HH. destruct HH as [?|(Eo & H1 & H2)]; [left; auto|right]. split; auto. split; auto.
    exists X. split; auto. intros k Hk.
    destruct (csr_single_outcome d A batch n tol wl solvers Hl Hs1 _ mx B b mb B (fresh_contiguous batch n) Hb Hmx HB)
      as (dn & D1 & D2 & _). destruct D2 as [(_ & _ & Hc)|(Et & _)]; [|congruence].
    specialize (Hc k Hk). rewrite Forall_forall in Hs.
    assert (HI : In (nth k solvers d) solvers) by (apply nth_In; lia).
    destruct (Hs _ HI) as [_ Hrf]. apply Hrf in Hc. exact Hc.
Qed.
Print Assumptions C112_csr_single_in_place.
Example C112_csr_single_ex :
  Forall (fun s => reads_rows 1 s /\ reduction_factor 1 ex_id (1/100) s)
    [ex_solver 1 ex_id (1/100) guess_plus; ex_solver 1 ex_id (1/100) guess_plus] /\
  r_out (csr_solve 1 1 (csr_solve_single ex_id 1 1 (Fin (1/100)) false
     [ex_solver 1 ex_id (1/100) guess_plus; ex_solver 1 ex_id (1/100) guess_plus]) ex_b (ex_mem 1000)) = Ok tt.
Proof.
  assert (HF : Forall (fun s => reads_rows 1 s /\ reduction_factor 1 ex_id (1/100) s)
    [ex_solver 1 ex_id (1/100) guess_plus; ex_solver 1 ex_id (1/100) guess_plus]).
  { assert (H1 : reads_rows 1 (ex_solver 1 ex_id (1/100) guess_plus) /\ reduction_factor 1 ex_id (1/100) (ex_solver 1 ex_id (1/100) guess_plus))
      by (split; [apply ex_plus_reads|apply ex_reduction]).
    constructor; [exact H1|constructor; [exact H1|constructor]]. }
  split; auto.
  destruct (C112_csr_single_in_place ex_id 1 1 (1/100) (Fin (1/100)) false
    [ex_solver 1 ex_id (1/100) guess_plus; ex_solver 1 ex_id (1/100) guess_plus] ex_b (ex_mem 1000) (fun _ _ => 1000%R)
    (Nat.le_succ_diag_r 1) HF ex_contiguous (ex_holds 1000)) as [[E _]|[E _]]; auto. exfalso.
  assert (Hs1 : Forall (reads_rows 1) [ex_solver 1 ex_id (1/100) guess_plus; ex_solver 1 ex_id (1/100) guess_plus])
    by (eapply Forall_impl; [|exact HF]; intros s [HH _]; exact HH).
  destruct (csr_in_place 1 1 (csr_solve_single ex_id 1 1 (Fin (1/100)) false
     [ex_solver 1 ex_id (1/100) guess_plus; ex_solver 1 ex_id (1/100) guess_plus]) ex_b (ex_mem 1000) (fun _ _ => 1000%R)
     (fun _ _ => 1001%R) ex_contiguous (ex_holds 1000)) as (mx & Hmx & E1 & _).
  - intros mx Hmx. cbv zeta.
    destruct (C112_csr_single_solve (ex_solver 1 ex_id (1/100) guess_plus) ex_id 1 1 (Fin (1/100)) false
      [ex_solver 1 ex_id (1/100) guess_plus; ex_solver 1 ex_id (1/100) guess_plus] _ mx _ ex_b (ex_mem 1000) (fun _ _ => 1000%R)
      (Nat.le_succ_diag_r 1) Hs1 (fresh_contiguous 1 1) ex_contiguous Hmx (ex_holds 1000)) as (dn & D1 & D2 & D3 & _).
    destruct D2 as [(Eo & -> & _)|(Eo & _)]; [right|left; exact Eo]. split; auto.
    eapply holds_ext; [|exact D3]. intros i j Hi Hj. cbn in Hi. assert (i = 0) by lia. subst i. cbn. unfold guess_plus. ring.
  - rewrite E in E1.
    destruct (C112_csr_single_solve (ex_solver 1 ex_id (1/100) guess_plus) ex_id 1 1 (Fin (1/100)) false
      [ex_solver 1 ex_id (1/100) guess_plus; ex_solver 1 ex_id (1/100) guess_plus] _ mx _ ex_b (ex_mem 1000) (fun _ _ => 1000%R)
      (Nat.le_succ_diag_r 1) Hs1 (fresh_contiguous 1 1) ex_contiguous Hmx (ex_holds 1000)) as (dn & D1 & D2 & _).
    destruct D2 as [(Eo & _)|(_ & Hp & Hc & _)]; [congruence|]. assert (dn = 1) by lia. subst dn. cbn [Nat.sub nth] in Hc.
    unfold ex_solver in Hc. cbn [an_converged] in Hc. rewrite ex_residual, ex_norm in Hc. unfold guess_plus in Hc.
    replace (1000 + 1 - 1000)%R with 1%R in Hc by ring. rewrite Rabs_R1, (Rabs_pos_eq 1000) in Hc by lra.
    destruct (Rle_dec 1 (1 / 100 * 1000)); [discriminate|lra].
Qed.

(** A two-dimensional view given to Ginkgo is read faithfully when its rows are contiguous, and (for views
    with a unit second stride and some element) only then. *)
Theorem C112_view_partial : forall v,
  (forall batch n, contiguous v batch n -> exists x, to_gko_multivector v = Ok x /\
     forall i j, i < batch -> j < n -> mv_addr x i j = kv_addr v i j) /\
  (forall x, kv_s1 v = 1 -> 0 < kv_e1 v -> to_gko_multivector v = Ok x ->
     ((forall i j, i < kv_e0 v -> j < kv_e1 v -> mv_addr x i j = kv_addr v i j) <->
      (kv_e0 v <= 1 \/ kv_s0 v = kv_e1 v))).
Proof.
  intros v. split.
  - intros batch n Hc. eexists. split; [exact (to_gko_ok v batch n Hc)|]. intros i j _ _. now apply mv_addr_contiguous.
  - intros x H1 H2 E. exact (faithful_iff v H1 H2 x E).
Qed.
Print Assumptions C112_view_partial.
Example C112_view_ex : contiguous (KView 5 3 4 4 1) 3 4 /\
  to_gko_multivector (KView 5 3 4 4 1) = Ok (MVec 5 3 4) /\ mv_addr (MVec 5 3 4) 2 3 = 16%Z.
Proof. repeat split. Qed.

(** Finding: to_gko_multivector promises to accept every 2-D view with unit stride in the second
    dimension, but it drops the first stride: in a padded view (or a subview of a larger array) every
    system after the first one is read from the wrong place, without an error. *)
Theorem C112_view_refuted : exists v x, kv_s1 v = 1 /\ kv_e1 v <= kv_s0 v /\
  to_gko_multivector v = Ok x /\ mv_addr x 1 0 <> kv_addr v 1 0.
Proof. exists (KView 0 2 3 4 1), (MVec 0 2 3). repeat split; cbn; lia. Qed.
Print Assumptions C112_view_refuted.

(** Finding: MatrixBatchEll documents (and configures) the relative stopping criterion
    || A x - b || / || b || < tol but check_conv compares the absolute residual norm with tol: a solve
    whose systems all meet the criterion throws "did not converge" when || b || is large, and a solve
    whose solver gave up (here with the solution 0) returns normally when || b || is small. *)
Theorem C112_ell_criterion_refuted :
  (exists slv B t, reads_rows 1 slv /\ honest 1 ex_id slv /\ reduction_factor 1 ex_id t slv /\
     an_converged (slv 0 B B) = true /\
     r_out (ell_solve slv ex_id 1 1 (Fin t) false [[0]] ex_b (ex_mem (B 0))) = Throw) /\
  (exists slv B t, reads_rows 1 slv /\ honest 1 ex_id slv /\ reduction_factor 1 ex_id t slv /\
     an_converged (slv 0 B B) = false /\ residual 1 (ex_id 0) (an_x (slv 0 B B)) B = norm 1 B /\ (norm 1 B > 0)%R /\
     r_out (ell_solve slv ex_id 1 1 (Fin t) false [[0]] ex_b (ex_mem (B 0))) = Ok tt).
Proof.
  split.
  - exists (ex_solver 1 ex_id (1/100) guess_plus), (fun _ => 1000%R), (1/100)%R.
    split; [apply ex_plus_reads|]. split; [apply ex_honest|]. split; [apply ex_reduction|].
    assert (ER : residual 1 (ex_id 0) (guess_plus (fun _ => 1000%R)) (fun _ => 1000%R) = 1%R).
    { rewrite ex_residual. unfold guess_plus. replace (1000 + 1 - 1000)%R with 1%R by ring. apply Rabs_R1. }
    split.
    + unfold ex_solver. cbn [an_converged]. rewrite ER, ex_norm, (Rabs_pos_eq 1000) by lra.
      destruct (Rle_dec 1 (1 / 100 * 1000)); auto. lra.
    + destruct (C112_ell_solve (ex_solver 1 ex_id (1/100) guess_plus) ex_id 1 1 (Fin (1/100)) false [[0]] ex_b (ex_mem 1000)
        (fun _ _ => 1000%R) (ex_plus_reads _) (Permutation_refl _) ex_contiguous (ex_holds 1000)) as [[(_ & H & _)|(E & _)] _]; auto.
      specialize (H 0 (Nat.lt_0_succ 0)). unfold ex_solver in H. cbn [an_resid at_most] in H. rewrite ER in H. lra.
  - exists (ex_solver 1 ex_id (1/100) guess_zero), (fun _ => (1/1000)%R), (1/100)%R.
    split; [apply ex_zero_reads|]. split; [apply ex_honest|]. split; [apply ex_reduction|].
    assert (ER : residual 1 (ex_id 0) (guess_zero (fun _ => (1/1000)%R)) (fun _ => (1/1000)%R) = (1/1000)%R).
    { rewrite ex_residual. unfold guess_zero. rewrite Rabs_left1 by lra. lra. }
    assert (EN : norm 1 (fun _ => (1/1000)%R) = (1/1000)%R) by (rewrite ex_norm; apply Rabs_pos_eq; lra).
    split; [|split; [|split]].
    + unfold ex_solver. cbn [an_converged]. rewrite ER, EN. destruct (Rle_dec (1/1000) (1 / 100 * (1/1000))); auto. lra.
    + cbn [ex_solver an_x]. congruence.
    + rewrite EN. lra.
    + destruct (C112_ell_solve (ex_solver 1 ex_id (1/100) guess_zero) ex_id 1 1 (Fin (1/100)) false [[0]] ex_b (ex_mem (1/1000))
        (fun _ _ => (1/1000)%R) (ex_zero_reads _) (Permutation_refl _) ex_contiguous (ex_holds _)) as [[(E & _)|(_ & (k & Hk & Hn) & _)] _]; auto.
      exfalso. apply Hn. assert (k = 0) by lia. subst k. unfold ex_solver. cbn [an_resid at_most]. rewrite ER. lra.
Qed.
Print Assumptions C112_ell_criterion_refuted.

(** Finding: with MatrixBatchCsr and one solver per system the solver stops on the relative criterion while
    the log compares the absolute residual: a solve which converged (no exception) writes "did not
    converge!" in its log. *)
Theorem C112_log_agrees_with_outcome_refuted : exists slv t v,
  reads_rows 1 slv /\ honest 1 ex_id slv /\ reduction_factor 1 ex_id t slv /\
  let r := csr_solve_single ex_id 1 1 (Fin t) true [slv] ex_b (ex_mem v) ex_b (ex_mem v) in
  r_out r = Ok tt /\ In (LNotConverged 0) (r_log r).
Proof.
  exists (ex_solver 1 ex_id (1/100) guess_plus), (1/100)%R, 1000%R.
  split; [apply ex_plus_reads|]. split; [apply ex_honest|]. split; [apply ex_reduction|]. cbv zeta.
  assert (ER : residual 1 (ex_id 0) (guess_plus (fun _ => 1000%R)) (fun _ => 1000%R) = 1%R).
  { rewrite ex_residual. unfold guess_plus. replace (1000 + 1 - 1000)%R with 1%R by ring. apply Rabs_R1. }
  destruct (C112_csr_single_solve (ex_solver 1 ex_id (1/100) guess_plus) ex_id 1 1 (Fin (1/100)) true
    [ex_solver 1 ex_id (1/100) guess_plus] ex_b (ex_mem 1000) (fun _ _ => 1000%R) ex_b (ex_mem 1000) (fun _ _ => 1000%R)
    (le_n 1) (Forall_cons _ (ex_plus_reads _) (Forall_nil _)) ex_contiguous ex_contiguous (ex_holds 1000) (ex_holds 1000))
    as (dn & D1 & D2 & _ & _ & HL).
  assert (HC : an_converged (ex_solver 1 ex_id (1/100) guess_plus 0 (fun _ => 1000%R) (fun _ => 1000%R)) = true).
  { unfold ex_solver. cbn [an_converged]. rewrite ER, ex_norm, (Rabs_pos_eq 1000) by lra.
    destruct (Rle_dec 1 (1 / 100 * 1000)); auto. lra. }
  destruct D2 as [(E & -> & _)|(_ & Hp & Hc & _)].
  - split; auto. destruct HL as (es & -> & HF). cbn [seq] in HF. inversion HF as [|? ? ? ? He HF']; subst.
    inversion HF'; subst. destruct He as (w & -> & [[Hm _]|[_ ->]]).
    + exfalso. cbn [nth an_x ex_solver] in Hm. rewrite ER in Hm. cbn in Hm. lra.
    + cbn. tauto.
  - assert (dn = 1) by lia. subst dn. cbn [Nat.sub nth] in Hc. rewrite HC in Hc. discriminate.
Qed.
Print Assumptions C112_log_agrees_with_outcome_refuted.
