(** Initial densities of the merger and of the Kelvin-Helmholtz instability; the (x, y) time solver. *)
From Coquelicot Require Import Coquelicot.
From Verif Require Import Lib DerivModel MathModel RestrictProofs GciModel PcrSpec PcrProofs PcrMain GciSpec GciDio.
Open Scope R_scope.

(** ** the two vortices *)
Lemma bump_bounds q s : s <> 0 -> 0 <= q -> 0 < exp (- q / (2 * s * s)) <= 1.
Proof.
  intros S Q. split; [apply exp_pos|]. assert (D : 0 < 2 * s * s) by (apply Rsqr_pos_lt in S; unfold Rsqr in S; lra). 
  assert (M : - q / (2 * s * s) <= 0). { unfold Rdiv. rewrite Ropp_mult_distr_l_reverse. assert (0 <= q * / (2 * s * s)) by (apply Rmult_le_pos; [exact Q|left; apply Rinv_0_lt_compat; exact D]). lra. }
  destruct M as [M|M]; [|rewrite M, exp_0; lra]. apply exp_increasing in M. rewrite exp_0 in M. lra.
Qed.
Lemma vortex_bounds rho_eq eps sigma x1 y1 x2 y2 x y : sigma <> 0 ->
  Rabs (vortex_density rho_eq eps sigma x1 y1 x2 y2 x y - rho_eq) <= 2 * Rabs eps /\
  (0 < eps -> rho_eq < vortex_density rho_eq eps sigma x1 y1 x2 y2 x y).
Proof.
  intros S. unfold vortex_density. set (q1 := (x - x1) * (x - x1) + (y - y1) * (y - y1)). set (q2 := (x - x2) * (x - x2) + (y - y2) * (y - y2)).
  assert (Q1 : 0 <= q1) by (unfold q1; pose proof (Rle_0_sqr (x - x1)); pose proof (Rle_0_sqr (y - y1)); unfold Rsqr in *; lra).
  assert (Q2 : 0 <= q2) by (unfold q2; pose proof (Rle_0_sqr (x - x2)); pose proof (Rle_0_sqr (y - y2)); unfold Rsqr in *; lra).
  pose proof (bump_bounds _ _ S Q1) as B1. pose proof (bump_bounds _ _ S Q2) as B2. set (e1 := exp (- q1 / _)) in *. set (e2 := exp (- q2 / _)) in *. split.
  - replace (rho_eq + eps * (e1 + e2) - rho_eq) with (eps * (e1 + e2)) by ring. rewrite Rabs_mult, (Rabs_pos_eq (e1 + e2)) by lra. pose proof (Rabs_pos eps). nra.
  - intros. nra.
Qed.
Lemma vortex_swap rho_eq eps sigma x1 y1 x2 y2 x y : vortex_density rho_eq eps sigma x2 y2 x1 y1 x y = vortex_density rho_eq eps sigma x1 y1 x2 y2 x y.
Proof. unfold vortex_density. ring. Qed.
Lemma vortex_mirror rho_eq eps sigma x1 y1 x2 y2 h k : (* the point reflection about the middle of the centres *)
  vortex_density rho_eq eps sigma x1 y1 x2 y2 ((x1 + x2) / 2 + h) ((y1 + y2) / 2 + k) = vortex_density rho_eq eps sigma x1 y1 x2 y2 ((x1 + x2) / 2 - h) ((y1 + y2) / 2 - k).
Proof.
  unfold vortex_density. rewrite (Rplus_comm (exp _)). do 2 f_equal. f_equal; f_equal; f_equal; f_equal; field.
Qed.
Lemma vortex_centre rho_eq eps sigma x1 y1 x2 y2 : sigma <> 0 ->
  vortex_density rho_eq eps sigma x1 y1 x2 y2 x1 y1 = rho_eq + eps * (1 + exp (- ((x1 - x2) ^ 2 + (y1 - y2) ^ 2) / (2 * sigma ^ 2))).
Proof.
  intros S. unfold vortex_density. do 2 f_equal. f_equal; [|f_equal; field; exact S]. 
  match goal with |- exp ?q = 1 => replace q with 0 by (field; exact S) end. apply exp_0.
Qed.
(** ** Kelvin-Helmholtz *)
Lemma kh_values eps k x y : fst (kelvin_helmholtz eps k x y) = sin y /\ Rabs (snd (kelvin_helmholtz eps k x y) - sin y) <= Rabs eps.
Proof.
  cbn [kelvin_helmholtz fst snd]. split; [reflexivity|]. replace (sin y + eps * cos (k * x) - sin y) with (eps * cos (k * x)) by ring. rewrite Rabs_mult.
  rewrite <- (Rmult_1_r (Rabs eps)) at 2. apply Rmult_le_compat_l; [apply Rabs_pos|]. apply Rabs_le. pose proof (COS_bound (k * x)). lra.
Qed.
Lemma kh_mean eps k x0 y n : k <> 0 -> is_RInt (fun x => snd (kelvin_helmholtz eps k x y)) x0 (x0 + 2 * PI * IZR n / k) (2 * PI * IZR n / k * sin y).
Proof.
  intros K. cbn [kelvin_helmholtz snd]. set (F := fun x => sin y * x + eps / k * sin (k * x)).
  replace (2 * PI * IZR n / k * sin y) with (minus (F (x0 + 2 * PI * IZR n / k)) (F x0)).
  - apply (is_RInt_derive (V := R_CompleteNormedModule) F).
    + intros x _. unfold F. auto_derive; [exact I|]. field. exact K.
    + intros x _. apply @ex_derive_continuous. auto_derive. exact I.
  - unfold F, minus, plus, opp; cbn. replace (k * (x0 + 2 * PI * IZR n / k)) with (k * x0 + 2 * IZR n * PI) by (field; exact K). rewrite sin_shift_Z. field. exact K.
Qed.
Lemma kh_mean_y eps k x y0 : is_RInt (fun y => snd (kelvin_helmholtz eps k x y)) y0 (y0 + 2 * PI) (2 * PI * (eps * cos (k * x))).
Proof.
  cbn [kelvin_helmholtz snd]. set (F := fun y => - cos y + eps * cos (k * x) * y).
  replace (2 * PI * (eps * cos (k * x))) with (minus (F (y0 + 2 * PI)) (F y0)).
  - apply (is_RInt_derive (V := R_CompleteNormedModule) F).
    + intros y _. unfold F. auto_derive; [exact I|]. ring.
    + intros y _. apply @ex_derive_continuous. auto_derive. exact I.
  - unfold F, minus, plus, opp; cbn. replace (y0 + 2 * PI) with (y0 + 2 * 1 * PI) by ring. rewrite (cos_shift_Z _ 1). ring.
Qed.

(** ** the solver *)
Section XY.
Context (o : xy_operators).
Lemma electric_fun f a b c d : electric o f a b -> electric o f c d -> a = c /\ b = d.
Proof. intros (g & E) (g' & E'). rewrite E in E'. injection E' as -> -> _. auto. Qed.
Lemma strang_fun f E dt a b : strang o f E dt a -> strang o f E dt b -> a = b.
Proof. intros (x & y & A & B & C) (x' & y' & A' & B' & C'). rewrite A in A'. injection A' as <-. rewrite B in B'. injection B' as <-. congruence. Qed.
Lemma xy_fun dt f a b : xy_step o dt f a -> xy_step o dt f b -> a = b.
Proof.
  intros (E & fP & EP & (p & A) & B & (q & C) & D) (E' & fP' & EP' & (p' & A') & B' & (q' & C') & D').
  destruct (electric_fun _ _ _ _ _ A A') as [_ <-]. rewrite <- (strang_fun _ _ _ _ _ B B') in *. destruct (electric_fun _ _ _ _ _ C C') as [_ <-]. exact (strang_fun _ _ _ _ _ D D').
Qed.
Lemma advect_iff f E dt f' : advect_allfdistribu o f E dt = Ok f' <-> strang o f E dt f'.
Proof.
  unfold advect_allfdistribu, strang. split.
  - destruct (x_advect_x o f _ _) as [f1| | |] eqn:A; cbn [bind]; try discriminate. destruct (x_advect_y o f1 _ _) as [f2| | |] eqn:B; cbn [bind]; try discriminate. intros C. exists f1, f2. auto.
  - intros (f1 & f2 & A & B & C). rewrite A. cbn [bind]. change (fun e : R * R => fst e) with (@fst R R). rewrite B. cbn [bind]. exact C.
Qed.
Lemma electric_iff f E : define_electric_field o f = Ok E <-> exists phi, electric o f phi E.
Proof.
  unfold define_electric_field, electric. split.
  - destruct (x_poisson o f) as [[[p E'] g]| | |]; cbn [bind]; try discriminate. intros [= <-]. eauto.
  - intros (p & g & ->). reflexivity.
Qed.
Lemma rk2_iff f dt f' : xy_rk2 o f dt = Ok f' <-> xy_step o dt f f'.
Proof.
  unfold xy_rk2. cbv zeta. replace (0.5 * dt) with (dt / 2) by lra. split.
  - destruct (define_electric_field o f) as [E| | |] eqn:A; cbn [bind]; try discriminate. destruct (advect_allfdistribu o f E (dt / 2)) as [fP| | |] eqn:B; cbn [bind]; try discriminate.
    destruct (define_electric_field o fP) as [EP| | |] eqn:C; cbn [bind]; try discriminate. intros D. exists E, fP, EP.
    rewrite electric_iff in A, C. rewrite advect_iff in B, D. auto.
  - intros (E & fP & EP & A & B & C & D). rewrite <- electric_iff in A, C. rewrite <- advect_iff in B, D. rewrite A. cbn [bind]. rewrite B. cbn [bind]. rewrite C. cbn [bind]. exact D.
Qed.
Lemma loop_sound' dt : keeps_rhs o -> forall n iter s s', xy_loop o dt n iter s = Ok s' ->
  exists fs evs, trajectory (xy_step o dt) n (fst s) fs /\ fst s' = fs n /\ snd s' = snd s ++ evs /\ length evs = n /\
    forall i, (i < n)%nat -> exists e, nth_error evs i = Some e /\ is_xy_event e (iter + Z.of_nat i) (IZR (iter + Z.of_nat i) * dt) (fs (S i)) (electric o (fs (S i))).
Proof.
  intros K. induction n as [|n IH]; intros iter s s'; cbn [xy_loop].
  - intros [= <-]. exists (fun _ => fst s), []. split; [split; [reflexivity|intros; lia]|]. split; [reflexivity|]. split; [rewrite app_nil_r; reflexivity|]. split; [reflexivity|intros; lia].
  - unfold xy_body at 1. destruct (xy_rk2 o (fst s) dt) as [f| | |] eqn:A; cbn [bind]; try discriminate.
    destruct (x_poisson o f) as [[[p E] g]| | |] eqn:B; cbn [bind]; try discriminate. pose proof (K _ _ _ _ B). subst g. intros H.
    destruct (IH _ _ _ H) as (fs & evs & T & F & EV & L & P). cbn [fst snd] in *. rewrite rk2_iff in A.
    eexists (fun i => match i with O => fst s | S i => fs i end), (_ :: evs). split; [|split; [exact F|split; [rewrite EV, <- app_assoc; reflexivity|split; [cbn; lia|]]]].
    + destruct T as [T0 T]. split; [reflexivity|]. intros [|i] Hi; [rewrite T0; exact A|apply T; lia].
    + intros [|i] Hi; [eexists; split; [reflexivity|]|].
      * unfold is_xy_event; cbn. destruct T as [-> _]. rewrite Z.add_0_r. repeat split; auto. exists f. exact B.
      * destruct (P i ltac:(lia)) as (e & E1 & E2). exists e. split; [exact E1|]. replace (iter + Z.of_nat (S i))%Z with (iter + 1 + Z.of_nat i)%Z by lia. exact E2.
Qed.
Lemma loop_total' dt : keeps_rhs o -> forall n iter s fs, trajectory (xy_step o dt) n (fst s) fs -> (forall i, (1 <= i <= n)%nat -> exists phi E, electric o (fs i) phi E) ->
  exists s', xy_loop o dt n iter s = Ok s'.
Proof.
  intros K. induction n as [|n IH]; intros iter s fs T P; cbn [xy_loop]; [eauto|]. destruct T as [T0 T].
  pose proof (T 0%nat ltac:(lia)) as A. rewrite T0 in A. rewrite <- rk2_iff in A. unfold xy_body at 1. rewrite A. cbn [bind]. destruct (P 1%nat ltac:(lia)) as (p & E & g & B).
  rewrite B. cbn [bind]. pose proof (K _ _ _ _ B). subst g. apply (IH _ _ (fun i => fs (S i))).
  - split; [reflexivity|]. intros i Hi. apply T. lia.
  - intros i Hi. apply P. lia.
Qed.
Lemma xy_sound dt f nbiter f' evs : keeps_rhs o -> predcorr_xy o f dt nbiter = Ok (f', evs) ->
  exists fs, trajectory (xy_step o dt) (count nbiter) f fs /\ f' = fs (count nbiter) /\ length evs = count nbiter /\
    forall i, (i < count nbiter)%nat -> exists e, nth_error evs i = Some e /\
      is_xy_event e (Z.of_nat (S i)) (INR (S i) * dt) (fs (S i)) (electric o (fs (S i))).
Proof.
  intros K. unfold predcorr_xy. destruct (nbiter <? int_max)%Z; [|discriminate]. intros H. destruct (loop_sound' dt K _ _ _ _ H) as (fs & ev & T & F & EV & L & P).
  cbn [fst snd app] in *. subst ev. exists fs. unfold count. split; [exact T|]. split; [exact F|]. split; [exact L|]. intros i Hi. destruct (P i Hi) as (e & A & B). exists e.
  split; [exact A|]. rewrite INR_IZR_INZ. replace (Z.of_nat (S i)) with (1 + Z.of_nat i)%Z by lia. exact B.
Qed.
Lemma xy_complete dt f nbiter fs : keeps_rhs o -> (nbiter < int_max)%Z -> trajectory (xy_step o dt) (count nbiter) f fs ->
  (forall i, (1 <= i <= count nbiter)%nat -> exists phi E, electric o (fs i) phi E) -> exists r, predcorr_xy o f dt nbiter = Ok r.
Proof.
  intros K L T P. unfold predcorr_xy. apply Z.ltb_lt in L. rewrite L. exact (loop_total' dt K _ _ (f, []) _ T P).
Qed.
Lemma xy_restart dt f n k f1 e1 f2 e2 : keeps_rhs o -> (0 <= n)%Z -> (0 <= k)%Z -> (n + k < int_max)%Z ->
  predcorr_xy o f dt n = Ok (f1, e1) -> predcorr_xy o f1 dt k = Ok (f2, e2) ->
  exists e, predcorr_xy o f dt (n + k) = Ok (f2, e).
Proof.
  intros K N0 K0 L H1 H2. destruct (xy_sound _ _ _ _ _ K H1) as (fs & T & F & _ & P). destruct (xy_sound _ _ _ _ _ K H2) as (fs' & T' & F' & _ & P'). subst f1.
  pose proof (traj_app (xy_step o dt) _ _ _ _ _ T T') as TT. assert (C : count (n + k) = (count n + count k)%nat) by (unfold count; lia).
  assert (LST : (if (count n + count k <=? count n)%nat then fs (count n + count k)%nat else fs' (count n + count k - count n)%nat) = fs' (count k)).
  { destruct (Nat.leb_spec (count n + count k) (count n)).
    - assert (count k = 0)%nat as -> by lia. rewrite Nat.add_0_r. symmetry. apply T'.
    - f_equal. lia. }
  set (gs := fun i => if (i <=? count n)%nat then fs i else fs' (i - count n)%nat) in *. rewrite <- C in TT.
  destruct (xy_complete dt f (n + k) gs K L TT) as ((f3 & e3) & E).
  { intros i Hi. rewrite C in Hi. unfold gs. destruct (Nat.leb_spec i (count n)).
    - destruct (P (i - 1)%nat ltac:(lia)) as (e & _ & (_ & _ & _ & Q)). replace (S (i - 1)) with i in Q by lia. eauto.
    - destruct (P' (i - count n - 1)%nat ltac:(lia)) as (e & _ & (_ & _ & _ & Q)). replace (S (i - count n - 1)) with (i - count n)%nat in Q by lia. eauto. }
  exists e3. destruct (xy_sound _ _ _ _ _ K E) as (fs3 & T3 & F3 & _). rewrite E. do 2 f_equal. rewrite F3, F'.
  rewrite (traj_unique (xy_step o dt) _ _ _ _ (xy_fun dt) T3 TT _ (le_n _)). rewrite C. exact LST.
Qed.
Lemma xy_nothing dt f nbiter : (nbiter <= 0)%Z -> predcorr_xy o f dt nbiter = Ok (f, []).
Proof.
  intros H. unfold predcorr_xy. assert (L : (nbiter <? int_max)%Z = true) by (apply Z.ltb_lt; unfold int_max; lia). rewrite L.
  replace (Z.to_nat nbiter) with 0%nat by lia. reflexivity.
Qed.
Lemma xy_invariant dt f nbiter f' evs (P : list R -> Prop) : keeps_rhs o ->
  (forall g a h g', P g -> (x_advect_x o g a h = Ok g' \/ x_advect_y o g a h = Ok g') -> P g') -> P f ->
  predcorr_xy o f dt nbiter = Ok (f', evs) -> P f' /\ forall e, In e evs -> P (xe_f e).
Proof.
  intros K I0 Pf H. destruct (xy_sound _ _ _ _ _ K H) as (fs & T & F & L & Q).
  assert (A : forall i, (i <= count nbiter)%nat -> P (fs i)).
  { apply (traj_inv (xy_step o dt) P _ f); [|exact T|exact Pf]. intros a b (E & fP & EP & _ & _ & _ & (f1 & f2 & X & Y & Z)) Pa.
    apply (I0 _ _ _ _ (I0 _ _ _ _ (I0 _ _ _ _ Pa (or_introl X)) (or_intror Y)) (or_introl Z)). }
  split; [rewrite F; apply A; lia|]. intros e He. destruct (nth_in_lt _ _ He) as (i & Hi & E). destruct (Q i ltac:(lia)) as (e' & E' & (_ & _ & V & _)).
  assert (e = e') by congruence. subst e'. rewrite V. apply A. lia.
Qed.
Lemma loop_last dt : forall n iter s s', (0 < n)%nat -> xy_loop o dt n iter s = Ok s' -> exists l e, snd s' = l ++ [e] /\ xe_f e = fst s' /\ length l = (length (snd s) + n - 1)%nat.
Proof.
  induction n as [|n IH]; intros iter s s' N; [lia|]. cbn [xy_loop]. destruct (xy_body o dt iter s) as [s1| | |] eqn:B; cbn [bind]; try discriminate.
  unfold xy_body in B. destruct (xy_rk2 o (fst s) dt) as [f| | |]; cbn [bind] in B; try discriminate. destruct (x_poisson o f) as [[[p E] g]| | |]; cbn [bind] in B; try discriminate.
  assert (S1 : s1 = (g, snd s ++ [{| xe_iter := iter; xe_time := IZR iter * dt; xe_f := g; xe_phi := p; xe_E := E |}])) by congruence. clear B. destruct n as [|n].
  - cbn [xy_loop]. intros [= <-]. rewrite S1. cbn [fst snd]. do 2 eexists. split; [reflexivity|]. split; [reflexivity|lia].
  - intros H. destruct (IH _ _ _ (Nat.lt_0_succ n) H) as (l & e & A & B & C). exists l, e. split; [exact A|]. split; [exact B|]. rewrite C, S1. cbn [snd]. rewrite app_length. cbn. lia.
Qed.
Lemma xy_last_event dt f nbiter f' evs : (0 < nbiter)%Z -> predcorr_xy o f dt nbiter = Ok (f', evs) -> exists e, nth_error evs (count nbiter - 1) = Some e /\ xe_f e = f'.
Proof.
  intros N. unfold predcorr_xy. destruct (nbiter <? int_max)%Z; [|discriminate]. intros H. assert (N1 : (0 < Z.to_nat nbiter)%nat) by lia. destruct (loop_last dt _ _ _ _ N1 H) as (l & e & A & B & C). cbn [fst snd] in *.
  exists e. split; [|exact B]. subst evs. cbn [length Nat.add] in C. unfold count. rewrite nth_error_app2 by lia. rewrite C, Nat.sub_diag. reflexivity.
Qed.
End XY.
Lemma vortices_full rho_eq eps sigma x1 y1 x2 y2 : sigma <> 0 ->
  (forall x y, Rabs (vortex_density rho_eq eps sigma x1 y1 x2 y2 x y - rho_eq) <= 2 * Rabs eps) /\
  (0 < eps -> forall x y, rho_eq < vortex_density rho_eq eps sigma x1 y1 x2 y2 x y) /\
  (forall x y, vortex_density rho_eq eps sigma x2 y2 x1 y1 x y = vortex_density rho_eq eps sigma x1 y1 x2 y2 x y) /\
  (forall h k, vortex_density rho_eq eps sigma x1 y1 x2 y2 ((x1 + x2) / 2 + h) ((y1 + y2) / 2 + k)
               = vortex_density rho_eq eps sigma x1 y1 x2 y2 ((x1 + x2) / 2 - h) ((y1 + y2) / 2 - k)) /\
  vortex_density rho_eq eps sigma x1 y1 x2 y2 x1 y1 = rho_eq + eps * (1 + exp (- ((x1 - x2) ^ 2 + (y1 - y2) ^ 2) / (2 * sigma ^ 2))).
Proof.
  intros S. split; [intros; apply vortex_bounds; exact S|]. split; [intros; apply vortex_bounds; assumption|]. split; [intros; apply vortex_swap|]. split; [intros; apply vortex_mirror|apply vortex_centre; exact S].
Qed.
Lemma kh_full eps k : (forall x y, fst (kelvin_helmholtz eps k x y) = sin y) /\
  (forall x y, Rabs (snd (kelvin_helmholtz eps k x y) - sin y) <= Rabs eps) /\
  (k <> 0 -> forall n x0 y, is_RInt (fun x => snd (kelvin_helmholtz eps k x y)) x0 (x0 + 2 * PI * IZR n / k) (2 * PI * IZR n / k * sin y)) /\
  (forall x y0, is_RInt (fun y => snd (kelvin_helmholtz eps k x y)) y0 (y0 + 2 * PI) (2 * PI * (eps * cos (k * x)))).
Proof.
  split; [intros; apply kh_values|]. split; [intros; apply kh_values|]. split; [intros; apply kh_mean; assumption|]. intros; apply kh_mean_y.
Qed.
