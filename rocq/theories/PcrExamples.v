(** Concrete operators: a grid of one point, used for the examples and the refutations. *)
From Coquelicot Require Import Coquelicot.
From Verif Require Import Lib DerivModel PcrModel PcrSpec PcrProofs PcrImplicit PcrMain.
Open Scope R_scope.

(** One point (1, 0); the density at the point is its own potential and its own velocity along x; the density is affine with
    slope 1, so an advection with A for dt subtracts dt A.  [ev]: the interpolant of a field *)
Definition toy (ev : R -> R -> R) : operators := {|
  o_grid := [(1, 0)]; o_build := fun v => Ok v; o_value := fun c _ _ => Ok (hd 0 c); o_eval := fun c X => Ok [ev (hd 0 c) (fst (hd (0, 0) X))];
  o_poisson_coef := fun rhs => let* v := rhs 0 0 in Ok [v]; o_poisson_grid := fun rhs => let* v := rhs 0 0 in Ok [v];
  o_polar := fun c => Ok c; o_field := fun phi => Ok [(hd 0 phi, 0)];
  o_advect := fun rho A dt => Ok [hd 0 rho - dt * fst (hd (0, 0) A)];
  o_feet := fun X A h => Ok [(fst (hd (0, 0) X) - h * fst (hd (0, 0) A), 0)]; o_phys := fun p => p |}.
(** a field which does not depend on the position *)
Definition uniform (a x : R) : R := a.
(** a field which is linear in x *)
Definition linear (a x : R) : R := a * x.
(** a field which vanishes away from the point of the grid *)
Definition local (a x : R) : R := if Req_EM_T x 1 then a else 0.
(** memory with the density rho and garbage *)
Definition start (rho : list R) : mem := {| m_s := fun b => match b with DENSITY_HOST => rho | _ => [7] end; m_v := fun _ => [(7, 7)]; m_events := [] |}.
Lemma start_given rho : given (start rho) rho. Proof. split; reflexivity. Qed.

Section Toy.
Context (ev : R -> R -> R) (ev0 : forall x, ev 0 x = 0).
Lemma toy_field r : field_of (toy ev) r [(hd 0 r, 0)].
Proof. exists [hd 0 r]. split; [exists r; split; reflexivity|reflexivity]. Qed.
Lemma toy_at a x : field_at (toy ev) [(a, 0)] [(x, 0)] [(ev a x, 0)].
Proof. exists [a], [0], [ev a x], [ev 0 x]. rewrite ev0. repeat split. cbn. rewrite ev0. reflexivity. Qed.
Lemma toy_picard a h x : picard (toy ev) [(a, 0)] h [(x, 0)] [(1 - h * (a + ev a x), 0)].
Proof. exists [(ev a x, 0)]. split; [apply toy_at|reflexivity]. Qed.
Lemma toy_grid r : grid_potential (toy ev) r [hd 0 r]. Proof. exists r. split; reflexivity. Qed.
Lemma toy_polar r : polar_potential_of (toy ev) r [hd 0 r]. Proof. exists [hd 0 r]. split; [exists r; split; reflexivity|reflexivity]. Qed.
Lemma toy_midpoint dt r : midpoint_step (toy ev) dt r [hd 0 r - dt * (hd 0 r - dt / 2 * hd 0 r)].
Proof. do 3 eexists. split; [apply toy_field|]. split; [reflexivity|]. split; [apply toy_field|reflexivity]. Qed.
Lemma toy_explicit dt r : let a := hd 0 r in let p := a - dt * a in
  explicit_code (toy ev) dt r [a - dt * ((ev p (1 - dt * a) + p) / 2)].
Proof. cbv zeta. do 5 eexists. split; [apply toy_field|]. split; [reflexivity|]. split; [reflexivity|]. split; [apply toy_field|]. split; [apply toy_at|reflexivity]. Qed.
Lemma toy_documented dt r : let a := hd 0 r in let p := a - dt * a in
  explicit_documented (toy ev) dt r [a - dt * ((ev a (1 - dt * a) + p) / 2)].
Proof. cbv zeta. do 5 eexists. split; [apply toy_field|]. split; [reflexivity|]. split; [reflexivity|]. split; [apply toy_field|]. split; [apply toy_at|reflexivity]. Qed.
Lemma toy_implicit w tau dt r x y : let a := hd 0 r in
  feet_solution (toy ev) [(a, 0)] (dt / 4) tau [(x, 0)] ->
  let p := a - dt / 2 * fst (hd (0, 0) (w [(a, 0)] [(ev a x, 0)])) in
  feet_solution (toy ev) [(p, 0)] (dt / 2) tau [(y, 0)] ->
  implicit_step w tau (toy ev) dt r [a - dt * ((p + ev p y) / 2)].
Proof.
  cbv zeta. intros H1 H2. do 7 eexists. split; [apply toy_field|]. split; [exact H1|]. split; [apply toy_at|]. split; [reflexivity|]. split; [eexists; reflexivity|].
  split; [apply toy_field|]. split; [exact H2|]. split; [apply toy_at|reflexivity].
Qed.
Lemma toy_close x y d : close_feet (toy ev) [(x, 0)] [(y, 0)] d <-> Rabs (x - y) <= d.
Proof.
  assert (X : sqrt ((x - y) ^ 2 + (0 - 0) ^ 2) = Rabs (x - y)) by (rewrite <- sqrt_Rsqr_abs; f_equal; unfold Rsqr; ring).
  unfold close_feet. cbn [combine o_phys toy]. split.
  - intros H. rewrite <- X. apply (H (x, 0) (y, 0)). left. reflexivity.
  - intros H p q [E|[]]. injection E as <- <-. cbn [fst snd]. rewrite X. exact H.
Qed.
Lemma total_traj (step : list R -> list R -> Prop) (f : list R -> list R) n rho : (forall r, step r (f r)) -> exists ds, trajectory step n rho ds.
Proof. intros H. exists (fun i => Nat.iter i f rho). split; [reflexivity|]. intros i _. apply H. Qed.
Lemma toy_predcorr_runs s dt steps m rho : given m rho -> exists m', predcorr (toy ev) s dt steps m = Ok m'.
Proof.
  intros G. destruct (total_traj (midpoint_step (toy ev) dt) (fun r => [hd 0 r - dt * (hd 0 r - dt / 2 * hd 0 r)]) (count steps) rho (toy_midpoint dt)) as [ds T].
  apply (predcorr_complete _ s dt steps m rho ds G T). intros k _. eexists. apply toy_grid.
Qed.
Lemma toy_explicit_runs s dt steps m rho : given m rho -> exists m', explicit_predcorr (toy ev) s dt steps m = Ok m'.
Proof.
  intros G. destruct (total_traj (explicit_code (toy ev) dt) _ (count steps) rho (toy_explicit dt)) as [ds T].
  apply (explicit_complete _ s dt steps m rho ds G T); [intros k _|]; eexists; [apply toy_polar|apply toy_grid].
Qed.
End Toy.
(** the fixed point of the uniform field: at most two iterations *)
Lemma uniform_feet a h tau : 0 <= tau -> feet_solution (toy uniform) [(a, 0)] h tau [(1 - h * (a + a), 0)].
Proof.
  intros Ht. destruct (Rle_dec (Rabs (1 - h * (a + a) - 1)) tau) as [C|C].
  - exists 1%nat, (fun i => match i with O => [(1, 0)] | _ => [(1 - h * (a + a), 0)] end). split; [|reflexivity].
    split; [reflexivity|]. split; [lia|]. split; [|split; [lia|left; apply toy_close; exact C]].
    intros i Hi. assert (i = 0)%nat as -> by lia. apply (toy_picard uniform ltac:(reflexivity)).
  - exists 2%nat, (fun i => match i with O => [(1, 0)] | _ => [(1 - h * (a + a), 0)] end). split; [|reflexivity].
    split; [reflexivity|]. split; [lia|]. split; [|split].
    + intros i Hi. destruct i as [|i]; apply (toy_picard uniform ltac:(reflexivity)).
    + intros i Hi. assert (i = 0)%nat as -> by lia. rewrite toy_close. exact C.
    + left. change (2 - 1)%nat with 1%nat. cbv beta iota. rewrite toy_close. rewrite Rminus_diag_eq, Rabs_R0 by reflexivity. exact Ht.
Qed.
Lemma uniform_implicit dt r : implicit_code (toy uniform) dt r [hd 0 r - dt * (hd 0 r - dt / 2 * hd 0 r)].
Proof.
  pose proof tau_pos as TP.
  assert (E : [hd 0 r - dt * (hd 0 r - dt / 2 * hd 0 r)] = [hd 0 r - dt * ((hd 0 r - dt / 2 * hd 0 r + (hd 0 r - dt / 2 * hd 0 r)) / 2)]) by (f_equal; field).
  rewrite E. unfold implicit_code. eapply (toy_implicit uniform ltac:(reflexivity) (fun _ AX => AX)); apply uniform_feet; exact TP.
Qed.
Lemma uniform_implicit_runs s dt steps m rho : given m rho -> exists m', implicit_predcorr (toy uniform) s dt steps m = Ok m'.
Proof.
  intros G. destruct (total_traj (implicit_code (toy uniform) dt) _ (count steps) rho (uniform_implicit dt)) as [ds T].
  apply (implicit_complete _ s dt steps m rho ds G T); [intros k _|]; eexists; [apply toy_polar|apply toy_grid].
Qed.

(** ** Refutations *)
Lemma label_refuted : ~ (forall o s dt steps m rho m', given m rho -> predcorr o s dt steps m = Ok m' ->
  forall k e, nth_error (m_events m') k = Some e -> ev_time e = INR k * dt).
Proof.
  intros H. destruct (toy_predcorr_runs uniform true 1 1 (start [1]) [1] (start_given _)) as [m' E].
  destruct (predcorr_sound _ _ _ _ _ _ _ (start_given [1]) E) as (ds & _ & _ & _ & _ & V). destruct (V 0%nat ltac:(cbn; lia)) as (e & N & (_ & _ & T & _)).
  specialize (H _ _ _ _ _ _ _ (start_given [1]) E 1%nat e N). rewrite T in H. cbn in H. lra.
Qed.
Lemma documented_refuted : ~ (forall o s dt steps m rho m', given m rho -> explicit_predcorr o s dt steps m = Ok m' ->
  exists ds, trajectory (explicit_documented o dt) (count steps) rho ds /\ m_s m' DENSITY_HOST = ds (count steps)).
Proof.
  assert (L0 : forall x, linear 0 x = 0) by (intros x; unfold linear; ring).
  intros H. destruct (toy_explicit_runs linear L0 true (1 / 2) 1 (start [1]) [1] (start_given _)) as [m' E].
  destruct (explicit_sound _ _ _ _ _ _ _ (start_given [1]) E) as (ds & T & D & _).
  destruct (H _ _ _ _ _ _ _ (start_given [1]) E) as (ds' & T' & D'). change (count 1) with 1%nat in *.
  destruct T as [T0 T]. destruct T' as [T0' T']. specialize (T 0%nat ltac:(lia)). specialize (T' 0%nat ltac:(lia)). rewrite T0 in T. rewrite T0' in T'.
  assert (X := explicit_fun _ _ _ _ _ _ T (toy_explicit linear L0 (1 / 2) [1])). assert (X' := explicit_fun _ _ _ _ _ _ T' (toy_documented linear L0 (1 / 2) [1])).
  rewrite D in D'. rewrite X, X' in D'. unfold linear in D'. cbn [hd] in D'. assert (D2 := f_equal (hd 0) D'). cbn [hd] in D2. lra.
Qed.
Lemma exp_quadratic t : 0 <= t -> exp (- t) <= 1 - t + t * t / 2.
Proof.
  intros [Ht|<-]; [|rewrite Ropp_0, exp_0; lra].
  destruct (MVT_cor2 (fun s => 1 - s + s * s / 2 - exp (- s)) (fun s => - 1 + s + exp (- s)) 0 t Ht) as (c & E & Hc).
  - intros c _. apply is_derive_Reals. auto_derive; auto. field.
  - pose proof (exp_ineq1_le (- c)). rewrite Ropp_0, exp_0 in E.
    assert (0 <= (- 1 + c + exp (- c)) * (t - 0)) by (apply Rmult_le_pos; lra). lra.
Qed.
(** the density of this problem decays like exp(- t); second order accuracy would mean an error O(dt^3) of one step *)
Lemma order_refuted : ~ (exists K delta, 0 < delta /\ forall s dt m m', 0 < dt < delta -> given m [1] ->
  explicit_predcorr (toy uniform) s dt 1 m = Ok m' -> Rabs (hd 0 (m_s m' DENSITY_HOST) - exp (- dt)) <= K * dt ^ 3).
Proof.
  intros (K & delta & Hd & H). set (k := Rmax K 1). assert (K1 : 1 <= k) by apply Rmax_r. assert (K2 : K <= k) by apply Rmax_l.
  set (dt := Rmin (delta / 2) (/ (4 * k))). assert (P4 : 0 < / (4 * k)) by (apply Rinv_0_lt_compat; lra).
  assert (H0 : 0 < dt) by (apply Rmin_glb_lt; lra). assert (H1 : dt <= delta / 2) by apply Rmin_l. assert (H2 : dt <= / (4 * k)) by apply Rmin_r.
  destruct (toy_explicit_runs uniform ltac:(reflexivity) true dt 1 (start [1]) [1] (start_given _)) as [m' E].
  specialize (H true dt (start [1]) m' ltac:(lra) (start_given [1]) E).
  destruct (explicit_sound _ _ _ _ _ _ _ (start_given [1]) E) as (ds & [T0 T] & D & _). change (count 1) with 1%nat in *. specialize (T 0%nat ltac:(lia)). rewrite T0 in T.
  assert (X := explicit_fun _ _ _ _ _ _ T (toy_explicit uniform ltac:(reflexivity) dt [1])). rewrite D, X in H. unfold uniform in H. cbn [hd] in H.
  replace (1 - dt * ((1 - dt * 1 + (1 - dt * 1)) / 2)) with (1 - dt + dt * dt) in H by field.
  pose proof (exp_quadratic dt ltac:(lra)) as Q. pose proof (Rle_abs (1 - dt + dt * dt - exp (- dt))) as A.
  assert (KD : k * dt <= / 4). { apply Rmult_le_compat_l with (r := k) in H2; [|lra]. replace (k * / (4 * k)) with (/ 4) in H2 by (field; lra). exact H2. }
  assert (DD : 0 < dt * dt) by (apply Rmult_lt_0_compat; lra).
  assert (C1 : K * dt ^ 3 <= k * dt * (dt * dt)). { replace (K * dt ^ 3) with (K * (dt * (dt * dt))) by ring. replace (k * dt * (dt * dt)) with (k * (dt * (dt * dt))) by ring. apply Rmult_le_compat_r; [apply Rmult_le_pos; lra|exact K2]. }
  assert (C2 : k * dt * (dt * dt) <= / 4 * (dt * dt)) by (apply Rmult_le_compat_r; lra). lra.
Qed.
Lemma last_event_refuted : ~ (forall o s dt steps m rho m', given m rho -> implicit_predcorr o s dt steps m = Ok m' ->
  forall e, In e (m_events m') -> ev_last e = true -> ev_density e = m_s m' DENSITY_HOST).
Proof.
  intros H. destruct (uniform_implicit_runs false 1 1 (start [1]) [1] (start_given _)) as [m' E].
  destruct (implicit_sound _ _ _ _ _ _ _ (start_given [1]) E) as (ds & [T0 T] & D & _ & _ & (e & N & (L & _ & _ & R1 & _))). change (count 1) with 1%nat in *. specialize (T 0%nat ltac:(lia)).
  specialize (H _ _ _ _ _ _ _ (start_given [1]) E e (nth_error_In _ _ N) L). rewrite R1, D in H. cbv iota in H. change (1 - 1)%nat with 0%nat in H. rewrite T0 in T, H.
  assert (X := implicit_fun _ _ _ _ _ _ _ T (uniform_implicit 1 [1])). rewrite X in H. cbn [hd] in H. assert (D2 := f_equal (hd 0) H). cbn [hd] in D2. lra.
Qed.
(** the field which vanishes away from the grid: the feet are 1, 1 - 2 h a, 1 - h a, 1 - h a *)
Lemma local_0 x : local 0 x = 0. Proof. unfold local. destruct (Req_EM_T x 1); reflexivity. Qed.
Lemma local_at a : local a 1 = a. Proof. unfold local. destruct (Req_EM_T 1 1); [reflexivity|contradiction]. Qed.
Lemma local_off a x : x <> 1 -> local a x = 0. Proof. intros H. unfold local. destruct (Req_EM_T x 1); [contradiction|reflexivity]. Qed.
Lemma local_feet a h tau : 0 < tau < h * a -> feet_solution (toy local) [(a, 0)] h tau [(1 - h * a, 0)].
Proof.
  intros Ht. exists 3%nat, (fun i => match i with O => [(1, 0)] | 1%nat => [(1 - h * (a + a), 0)] | _ => [(1 - h * a, 0)] end). split; [|reflexivity].
  assert (HA : h * (a + a) = h * a + h * a) by ring.
  split; [reflexivity|]. split; [lia|]. split; [|split].
  - intros i Hi. assert (i = 0 \/ i = 1 \/ i = 2)%nat as [->| [->| ->]] by lia.
    + pose proof (toy_picard local local_0 a h 1) as P. rewrite local_at in P. exact P.
    + pose proof (toy_picard local local_0 a h (1 - h * (a + a))) as P. rewrite local_off, Rplus_0_r in P by lra. exact P.
    + pose proof (toy_picard local local_0 a h (1 - h * a)) as P. rewrite local_off, Rplus_0_r in P by lra. exact P.
  - intros i Hi. assert (i = 0 \/ i = 1)%nat as [->| ->] by lia; rewrite toy_close.
    + rewrite Rabs_left by lra. lra.
    + rewrite Rabs_right by lra. lra.
  - left. change (3 - 1)%nat with 2%nat. cbv beta iota. rewrite toy_close. rewrite Rminus_diag_eq, Rabs_R0 by reflexivity. lra.
Qed.
Lemma tau_small : 0 < / 10 ^ 6 < / 8. Proof. split; [apply Rinv_0_lt_compat; lra|apply Rinv_lt_contravar; lra]. Qed.
Lemma local_code : implicit_code (toy local) 1 [1] [1 - 1 * (1 / 2)].
Proof.
  pose proof tau_small. pose proof (local_feet 1 (1 / 4) (/ 10 ^ 6) ltac:(lra)) as F1. 
  pose proof (toy_implicit local local_0 (fun _ AX => AX) (/ 10 ^ 6) 1 [1] _ (1 - 1 / 2 * 1) F1) as S. cbv zeta in S. cbn [hd fst] in S.
  rewrite (local_off 1 (1 - 1 / 4 * 1)) in S by lra. replace (1 - 1 / 2 * 0) with 1 in S by ring. rewrite (local_off 1 (1 - 1 / 2 * 1)), Rplus_0_r in S by lra.
  apply S. apply local_feet. lra.
Qed.
Lemma local_commented : implicit_commented (toy local) 1 [1] [1 - 1 * (3 / 4 / 2)].
Proof.
  pose proof tau_small. pose proof (local_feet 1 (1 / 4) (/ 10 ^ 6) ltac:(lra)) as F1. 
  pose proof (toy_implicit local local_0 mean (/ 10 ^ 6) 1 [1] _ (1 - 1 / 2 * (3 / 4)) F1) as S. cbv zeta in S. cbn [hd fst snd mean map combine] in S.
  rewrite (local_off 1 (1 - 1 / 4 * 1)) in S by lra. replace (1 - 1 / 2 * ((1 + 0) / 2)) with (3 / 4) in S by field. rewrite (local_off (3 / 4) (1 - 1 / 2 * (3 / 4))), Rplus_0_r in S by lra.
  apply S. apply local_feet. lra.
Qed.
Lemma commented_refuted : ~ (forall o s dt steps m rho m', given m rho -> implicit_predcorr o s dt steps m = Ok m' ->
  exists ds, trajectory (implicit_commented o dt) (count steps) rho ds /\ m_s m' DENSITY_HOST = ds (count steps)).
Proof.
  intros H. destruct (implicit_complete (toy local) true 1 1 (start [1]) [1] (fun i => match i with O => [1] | _ => [1 - 1 * (1 / 2)] end) (start_given _)) as [m' E].
  - split; [reflexivity|]. intros i Hi. assert (i = 0)%nat as -> by (cbn in Hi; lia). exact local_code.
  - intros k _. eexists. apply toy_polar.
  - eexists. apply toy_grid.
  - destruct (implicit_sound _ _ _ _ _ _ _ (start_given [1]) E) as (ds & [T0 T] & D & _). destruct (H _ _ _ _ _ _ _ (start_given [1]) E) as (ds' & [T0' T'] & D').
    change (count 1) with 1%nat in *. specialize (T 0%nat ltac:(lia)). specialize (T' 0%nat ltac:(lia)). rewrite T0 in T. rewrite T0' in T'.
    rewrite D, (implicit_fun _ _ _ _ _ _ _ T local_code), (implicit_fun _ _ _ _ _ _ _ T' local_commented) in D'. assert (D2 := f_equal (hd 0) D'). cbn [hd] in D2. lra.
Qed.
(** the feet 1, 3, 5, ..., 101: the loop stops after 50 iterations *)
Lemma runaway_feet : feet_iteration (toy linear) [(1, 0)] (- 1) 1 50 (fun i => [(1 + 2 * INR i, 0)]).
Proof.
  assert (L0 : forall x, linear 0 x = 0) by (intros x; unfold linear; ring).
  split; [cbn; f_equal; f_equal; ring|]. split; [lia|]. split; [|split; [|right; reflexivity]].
  - intros i _. pose proof (toy_picard linear L0 1 (- 1) (1 + 2 * INR i)) as P. unfold linear in P. replace (1 - - 1 * (1 + 1 * (1 + 2 * INR i))) with (1 + 2 * INR (S i)) in P by (rewrite S_INR; ring). exact P.
  - intros i _. rewrite toy_close. rewrite !S_INR. replace (1 + 2 * (INR i + 1 + 0) - (1 + 2 * INR i)) with 2 by ring. replace (1 + 2 * (INR i + 1) - (1 + 2 * INR i)) with 2 by ring. rewrite Rabs_right; lra.
Qed.
Definition runaway_mem : mem := {| m_s := fun b => match b with COEFS_X => [1] | _ => [0] end; m_v := fun _ => [(1, 0)]; m_events := [] |}.
Lemma runaway_ready s : ready (toy linear) s runaway_mem [(1, 0)].
Proof. destruct s; repeat split. Qed.
Lemma converged_refuted : ~ (forall o s h tau m A m', 0 < tau -> ready o s m A -> implicit_loop o s h tau m = Ok m' ->
  exists X, picard o A h X (feet_in s m') /\ close_feet o (feet_in s m') X tau).
Proof.
  intros H. assert (S : feet_solution (toy linear) [(1, 0)] (- 1) 1 [(1 + 2 * INR 50, 0)]) by (exists 50%nat, (fun i => [(1 + 2 * INR i, 0)]); split; [exact runaway_feet|reflexivity]).
  destruct (runaway_ready true) as (R1 & R2 & R3). rewrite <- R2 in S.
  destruct (loop_total _ _ _ 1 _ _ Rle_0_1 R1 R3 S) as [m' E]. destruct (loop_inv _ _ _ 1 _ _ Rle_0_1 R1 R3 E) as (_ & _ & _ & S').  assert (P01 : 0 < 1) by lra.
  pose proof (feet_fun _ _ _ _ _ _ S S') as F. destruct (H _ _ _ _ _ _ _ P01 (runaway_ready true) E) as (X & (B & (cx & cy & bx & by_ & H1 & H2 & H3 & H4 & ->) & P) & C).
  unfold feet_in in P, C. rewrite <- F in P, C. cbn in H1, H2. injection H1 as <-. injection H2 as <-. cbn in H3, H4. injection H3 as <-. injection H4 as <-.
  cbn [o_feet toy o_grid plus combine map fst snd hd] in P. assert (P' := f_equal (fun r => match r with Ok v => fst (hd (0, 0) v) | _ => 0 end) P). cbn [fst hd] in P'. unfold linear in P'.
  assert (I50 : INR 50 = 50) by (rewrite INR_IZR_INZ; reflexivity). rewrite I50 in *. destruct X as [|[x y] X]; cbn [hd fst] in P'; [lra|].
  specialize (C (1 + 2 * 50, 0) (x, y) ltac:(left; reflexivity)). cbn [o_phys toy fst snd] in C.
  assert (Q : sqrt (2 * 2) <= sqrt ((1 + 2 * 50 - x) ^ 2 + (0 - y) ^ 2)). { apply sqrt_le_1_alt. replace x with 99 by lra. pose proof (pow2_ge_0 (0 - y)). lra. }
  rewrite sqrt_square in Q by lra. lra.
Qed.
(** a contraction *)
Lemma linear_contraction a h : contraction (toy linear) [(a, 0)] h (Rabs (h * a)).
Proof.
  intros [|[x y] [|]] [|[x' y'] [|]] X' Y' e; try discriminate. intros _ _ (B & (cx & cy & bx & by_ & H1 & H2 & H3 & H4 & ->) & P) (B' & (cx' & cy' & bx' & by_' & H1' & H2' & H3' & H4' & ->) & P') He C.
  cbn in H1, H2, H1', H2'. injection H1 as <-. injection H2 as <-. injection H1' as <-. injection H2' as <-. cbn in H3, H4, H3', H4'. injection H3 as <-. injection H4 as <-. injection H3' as <-. injection H4' as <-.
  cbn [o_feet toy o_grid plus combine map fst snd hd] in P, P'. assert (X' = [(1 - h * (a + linear a x), 0)]) as -> by congruence. assert (Y' = [(1 - h * (a + linear a x'), 0)]) as -> by congruence.
  apply toy_close. unfold linear. replace (1 - h * (a + a * x) - (1 - h * (a + a * x'))) with (- (h * a) * (x - x')) by ring. rewrite Rabs_mult, Rabs_Ropp. apply Rmult_le_compat_l; [apply Rabs_pos|].
  specialize (C (x, y) (x', y') ltac:(left; reflexivity)). cbn [o_phys toy fst snd] in C. refine (Rle_trans _ _ _ _ C). rewrite <- sqrt_Rsqr_abs. apply sqrt_le_1_alt. unfold Rsqr. pose proof (pow2_ge_0 (y - y')). lra.
Qed.
Lemma toy_lengths ev : feet_lengths (toy ev). Proof. intros A h X' [= <-]. reflexivity. Qed.
