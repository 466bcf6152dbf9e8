From Verif Require Import AdvSpec.
From Coq Require Import FunctionalExtensionality.
Open Scope R_scope.

Lemma line_ext n f g : (forall i, (i < n)%nat -> f i = g i) -> line n f = line n g.
Proof. intros H. apply map_ext_in. intros i Hi. apply in_seq in Hi. apply H. lia. Qed.

Lemma fold_left_ext_in {A B} (g h : A -> B -> A) l : forall a,
  (forall b a, In b l -> g a b = h a b) -> fold_left g l a = fold_left h l a.
Proof.
  induction l as [|b r IH]; intros a H; [reflexivity|]. cbn [fold_left].
  rewrite H by (left; reflexivity). apply IH. intros; apply H; right; auto.
Qed.
Definition pair_dec (a b : nat * nat) : {a = b} + {a <> b}.
Proof. decide equality; apply Nat.eq_dec. Defined.
(** a loop that writes h(ib, ix) at each visited point *)
Lemma fold_points (h : nat -> nat -> R) order : forall f ib ix,
  fold_left (fun g (idx : nat * nat) => let '(ib, ix) := idx in upd g ib (upd (g ib) ix (h ib ix))) order f ib ix
  = if in_dec pair_dec (ib, ix) order then h ib ix else f ib ix.
Proof.
  induction order as [|[jb jx] r IH]; intros f ib ix; [reflexivity|].
  cbn [fold_left]. rewrite IH. clear IH.
  destruct (in_dec _ (ib, ix) r) as [Hr|Hr]; destruct (in_dec _ (ib, ix) ((jb, jx) :: r)) as [Hc|Hc]; try reflexivity.
  - exfalso. apply Hc. right. exact Hr.
  - destruct Hc as [Hc|Hc]; [|tauto]. injection Hc as -> ->. now rewrite !upd_eq.
  - destruct (Nat.eq_dec ib jb) as [->|Hb]; [|now rewrite upd_neq].
    rewrite upd_eq. destruct (Nat.eq_dec ix jx) as [->|Hx]; [|now rewrite upd_neq].
    exfalso. apply Hc. left. reflexivity.
Qed.

Lemma line_feet_spec n x dx ib feet jb jx :
  line_feet n x dx ib feet jb jx = if ((jb =? ib) && (jx <? n))%nat then x jx - dx else feet jb jx.
Proof.
  unfold line_feet. revert feet. induction n as [|n IH]; intros feet.
  - simpl. now rewrite andb_false_r.
  - rewrite seq_S, fold_left_app. cbn [fold_left Nat.add].
    destruct (Nat.eqb_spec jb ib) as [->|Hb].
    + rewrite upd_eq. destruct (Nat.eq_dec jx n) as [->|Hx].
      * rewrite upd_eq. cbn [andb]. replace (n <? S n)%nat with true by (symmetry; apply Nat.ltb_lt; lia). reflexivity.
      * rewrite upd_neq by auto. rewrite IH. try rewrite Nat.eqb_refl. cbn [andb].
        destruct (Nat.ltb_spec jx n), (Nat.ltb_spec jx (S n)); try lia; reflexivity.
    + rewrite upd_neq by auto. rewrite IH. destruct (Nat.eqb_spec jb ib); [lia|reflexivity].
Qed.
Lemma feet_spec n x (dx : nat -> R) order : forall feet jb jx, In jb order -> (jx < n)%nat ->
  fold_left (fun ft ib => line_feet n x (dx ib) ib ft) order feet jb jx = x jx - dx jb.
Proof.
  induction order as [|a r IH]; intros feet jb jx H Hx; [destruct H|].
  cbn [fold_left]. destruct (in_dec Nat.eq_dec jb r) as [Hr|Hr]; [now apply IH|].
  destruct H as [->|H]; [|tauto].
  assert (E : forall r ft, ~ In jb r ->
    fold_left (fun ft ib => line_feet n x (dx ib) ib ft) r ft jb jx = ft jb jx).
  { clear. induction r as [|a r IH]; intros ft H; [reflexivity|]. cbn [fold_left].
    rewrite IH by (intros H1; apply H; right; exact H1). rewrite line_feet_spec.
    destruct (Nat.eqb_spec jb a) as [->|]; [exfalso; apply H; left; reflexivity|reflexivity]. }
  rewrite E by exact Hr. rewrite line_feet_spec, Nat.eqb_refl.
  replace (jx <? n)%nat with true by (symmetry; now apply Nat.ltb_lt). reflexivity.
Qed.

Section Species.
  Context {C : Type} (itp : interpolator C) (n nb : nat) (x : nat -> R).
  (** a loop over the species, each iteration of which moves the lines by [d isp ib] *)
  Variable step : nat -> adv_state C -> adv_state C.
  Variable d : nat -> nat -> R.
  Hypothesis step_spec : forall isp st jsp ib ix,
    a_f (step isp st) jsp ib ix =
    if ((jsp =? isp) && (ib <? nb) && (ix <? n))%nat
    then interpolant itp n (a_f st isp ib) (x ix - d isp ib) else a_f st jsp ib ix.
  Lemma species_loop ns : forall f feet coefs isp ib ix,
    a_f (fold_left (fun st isp => step isp st) (seq 0 ns) {| a_f := f; a_feet := feet; a_coefs := coefs |}) isp ib ix
    = if ((isp <? ns) && (ib <? nb) && (ix <? n))%nat
      then interpolant itp n (f isp ib) (x ix - d isp ib) else f isp ib ix.
  Proof.
    induction ns as [|ns IH]; intros f feet coefs isp ib ix; [reflexivity|].
    rewrite seq_S, fold_left_app. cbn [fold_left Nat.add]. rewrite step_spec.
    destruct (Nat.eqb_spec isp ns) as [->|Hs].
    - replace (ns <? S ns)%nat with true by (symmetry; apply Nat.ltb_lt; lia). cbn [andb].
      assert (E : forall jb jx, a_f (fold_left (fun st isp => step isp st) (seq 0 ns)
                 {| a_f := f; a_feet := feet; a_coefs := coefs |}) ns jb jx = f ns jb jx).
      { intros jb jx. rewrite IH. now rewrite Nat.ltb_irrefl. }
      rewrite E. replace (a_f _ ns ib) with (f ns ib); [reflexivity|].
      apply functional_extensionality. intros jx. symmetry. apply E.
    - cbn [andb]. rewrite IH. destruct (Nat.ltb_spec isp ns), (Nat.ltb_spec isp (S ns)); try lia; reflexivity.
  Qed.
End Species.

Lemma step_gen {C} (itp : interpolator C) n nb x (st : adv_state C) feet coefs isp dx jsp ib ix :
  (forall ib ix, (ib < nb)%nat -> (ix < n)%nat -> feet ib ix = x ix - dx ib) ->
  coefs = build_lines itp n nb (a_f st isp) (a_coefs st) ->
  upd (a_f st) isp (eval_lines itp n nb coefs feet (a_f st isp)) jsp ib ix =
    if ((jsp =? isp) && (ib <? nb) && (ix <? n))%nat
    then interpolant itp n (a_f st isp ib) (x ix - dx ib) else a_f st jsp ib ix.
Proof.
  intros Hf ->. destruct (Nat.eqb_spec jsp isp) as [->|Hs]; [|now rewrite upd_neq].
  rewrite upd_eq. unfold eval_lines, build_lines. cbn [andb].
  destruct (Nat.ltb_spec ib nb) as [H1|H1], (Nat.ltb_spec ix n) as [H2|H2]; cbn [andb]; try reflexivity.
  rewrite Hf by auto. reflexivity.
Qed.

Lemma spatial_result {C} (itp : interpolator C) mass ielec n nb x ns vel dt order feet0 coefs0 f :
  (forall isp, (isp < ns)%nat -> all_lines nb (order isp)) ->
  forall isp ib ix,
  spatial_advection itp mass ielec n nb x ns vel dt order feet0 coefs0 f isp ib ix =
  if ((isp <? ns) && (ib <? nb) && (ix <? n))%nat
  then interpolant itp n (f isp ib) (x ix - spatial_displacement mass ielec isp (vel ib) dt)
  else f isp ib ix.
Proof.
  intros Ho isp ib ix. unfold spatial_advection.
  (* iterations on species outside 0..ns-1 do not happen: any complete order will do for them *)
  set (ord := fun s => if (s <? ns)%nat then order s else seq 0 nb).
  assert (Hord : forall s, all_lines nb (ord s)).
  { intros s. unfold ord. destruct (Nat.ltb_spec s ns); [now apply Ho|].
    intros b. rewrite in_seq. lia. }
  transitivity (a_f (fold_left (fun st isp => spatial_species itp mass ielec n nb x vel dt (ord isp) isp st) (seq 0 ns)
           {| a_f := f; a_feet := feet0; a_coefs := coefs0 |}) isp ib ix).
  { erewrite fold_left_ext_in; [reflexivity|]. intros s st Hs. apply in_seq in Hs. unfold ord.
    replace (s <? ns)%nat with true by (symmetry; apply Nat.ltb_lt; lia). reflexivity. }
  apply (species_loop itp n nb x (fun isp st => spatial_species itp mass ielec n nb x vel dt (ord isp) isp st)
           (fun isp ib => spatial_displacement mass ielec isp (vel ib) dt)).
  intros s st jsp jb jx. unfold spatial_species. cbn [a_f].
  apply (step_gen itp n nb x st _ _ s (fun ib => spatial_displacement mass ielec s (vel ib) dt)); [|reflexivity]. intros b i Hb Hi.
  rewrite (feet_spec n x (fun ib => sqrt (mass ielec / mass s) * dt * vel ib)) by (try apply Hord; auto).
  unfold spatial_displacement. ring.
Qed.

Lemma velocity_result {C} (itp : interpolator C) mass charge ielec n nb x ns efield spatial dt order feet0 coefs0 f :
  (forall isp, (isp < ns)%nat -> all_lines nb (order isp)) ->
  forall isp ib ix,
  velocity_advection itp mass charge ielec n nb x ns efield spatial dt order feet0 coefs0 f isp ib ix =
  if ((isp <? ns) && (ib <? nb) && (ix <? n))%nat
  then interpolant itp n (f isp ib)
         (x ix - velocity_displacement mass charge ielec isp (efield (spatial ib)) dt)
  else f isp ib ix.
Proof.
  intros Ho isp ib ix. unfold velocity_advection.
  set (ord := fun s => if (s <? ns)%nat then order s else seq 0 nb).
  assert (Hord : forall s, all_lines nb (ord s)).
  { intros s. unfold ord. destruct (Nat.ltb_spec s ns); [now apply Ho|].
    intros b. rewrite in_seq. lia. }
  transitivity (a_f (fold_left (fun st isp => velocity_species itp mass charge ielec n nb x efield spatial dt (ord isp) isp st) (seq 0 ns)
           {| a_f := f; a_feet := feet0; a_coefs := coefs0 |}) isp ib ix).
  { erewrite fold_left_ext_in; [reflexivity|]. intros s st Hs. apply in_seq in Hs. unfold ord.
    replace (s <? ns)%nat with true by (symmetry; apply Nat.ltb_lt; lia). reflexivity. }
  apply (species_loop itp n nb x (fun isp st => velocity_species itp mass charge ielec n nb x efield spatial dt (ord isp) isp st)
           (fun isp ib => velocity_displacement mass charge ielec isp (efield (spatial ib)) dt)).
  intros s st jsp jb jx. unfold velocity_species. cbn [a_f].
  apply (step_gen itp n nb x st _ _ s (fun ib => velocity_displacement mass charge ielec s (efield (spatial ib)) dt)); [|reflexivity]. intros b i Hb Hi.
  rewrite (feet_spec n x (fun ib => charge s * sqrt (mass ielec / mass s) * dt * efield (spatial ib))) by (try apply Hord; auto).
  unfold velocity_displacement. ring.
Qed.

(** ** The feet *)
Lemma cn_const a b y dt0 k mc (yi : R) :
  b = yi + (k + k) * (1 / 2 * dt0) -> (a = yi \/ a = b) ->
  forall eps err nrm,
  snd (cn_loop R unit (fun _ _ => k) (fun y (q : unit -> R) h => y + q tt * h) err nrm mc yi (fun _ => k) dt0 eps y) = b.
Proof.
  intros -> _. revert y. induction mc as [|mc IH]; intros y eps err nrm; cbn [cn_loop cn_body].
  - reflexivity.
  - destruct (quot_ge _ _ eps); [|reflexivity].
    specialize (IH (yi + (k + k) * (1 / 2 * dt0)) eps err nrm).
    destruct (cn_loop _ _ _ _ _ _ mc _ _ _ _ _) as [[c u] v]. exact IH.
Qed.
Lemma foot_constant m k y dt : foot_update m (fun _ => k) y dt = y + k * dt.
Proof.
  destruct m; unfold foot_update; cbv zeta.
  - unfold euler. ring.
  - unfold rk2. field.
  - unfold rk3. field.
  - unfold rk4. field.
  - unfold crank_nicolson. erewrite cn_const; [|reflexivity|left; reflexivity]. field.
Qed.
Lemma cn_local dy k y0 dt eps err nrm mc : forall y,
  dy y0 = k -> y = y0 \/ y = y0 + k * dt -> dy (y0 + k * dt) = k ->
  snd (cn_loop R unit (fun y _ => dy y) (fun y (q : unit -> R) h => y + q tt * h) err nrm mc y0 (fun _ => k) dt eps y)
  = y0 + k * dt.
Proof.
  intros y H0 Hy H1. revert y Hy. induction mc as [|mc IH]; intros y Hy; cbn [cn_loop cn_body];
  (replace (y0 + (k + dy y) * (1 / 2 * dt)) with (y0 + k * dt) by (destruct Hy as [->| ->]; [rewrite H0|rewrite H1]; field)).
  - reflexivity.
  - destruct (quot_ge _ _ eps); [|reflexivity].
    specialize (IH (y0 + k * dt) (or_intror eq_refl)).
    destruct (cn_loop _ _ _ _ _ _ mc _ _ _ _ _) as [[c u] v]. exact IH.
Qed.
(** only the values of the field between the point and its foot matter *)
Lemma foot_locally_constant m dy k y dt :
  (forall t, 0 <= t <= 1 -> dy (y + t * (k * dt)) = k) -> foot_update m dy y dt = y + k * dt.
Proof.
  intros H.
  assert (H0 : dy y = k) by (replace y with (y + 0 * (k * dt)) by ring; apply H; lra).
  assert (H2 : dy (y + k * (1 / 2 * dt)) = k).
  { replace (y + k * (1 / 2 * dt)) with (y + 1 / 2 * (k * dt)) by ring. apply H; lra. }
  assert (H1 : dy (y + k * dt) = k).
  { replace (y + k * dt) with (y + 1 * (k * dt)) by ring. apply H; lra. }
  destruct m; unfold foot_update; cbv zeta.
  - unfold euler. rewrite H0. reflexivity.
  - unfold rk2. rewrite H0, H2. ring.
  - unfold rk3. rewrite H0, H2. replace (2 * k - k) with k by ring. rewrite H1. field.
  - unfold rk4. rewrite H0, H2, H2, H1. field.
  - unfold crank_nicolson. rewrite H0. apply cn_local; auto.
Qed.
Lemma foot_zero m dy y : foot_update m dy y 0 = y.
Proof.
  rewrite (foot_locally_constant m dy (dy y) y 0); [ring|].
  intros t _. f_equal. ring.
Qed.

Lemma advection_1d_result {C A} (fi : interpolator C) (ai : interpolator A) m n nb x proj adv dt order f :
  all_points nb n order -> forall ib ix,
  advection_1d fi ai m n x proj adv dt None None None None order f ib ix =
  if ((ib <? nb) && (ix <? n))%nat
  then interpolant fi n (f ib) (foot_update m (interpolant ai n (adv (proj ib))) (x ix) (- dt))
  else f ib ix.
Proof.
  intros Ho ib ix. unfold advection_1d. cbn [option_map].
  rewrite (fold_points (fun ib ix => i_eval fi (i_build fi None None (line n (f ib)))
    (foot_update m (fun y => i_eval ai (i_build ai None None (line n (adv (proj ib)))) y) (x ix) (- dt)))).
  destruct (in_dec _ (ib, ix) order) as [H|H].
  - apply Ho in H as [Hb Hx].
    replace ((ib <? nb) && (ix <? n))%nat with true; [reflexivity|].
    symmetry. apply andb_true_intro. split; now apply Nat.ltb_lt.
  - destruct (Nat.ltb_spec ib nb), (Nat.ltb_spec ix n); try reflexivity.
    exfalso. apply H, Ho. auto.
Qed.
(** with the optional derivatives *)
Lemma advection_1d_derivatives {C A} (fi : interpolator C) (ai : interpolator A) m n nb x proj adv dt amin amax fmin fmax order f :
  all_points nb n order -> forall ib ix, (ib < nb)%nat -> (ix < n)%nat ->
  advection_1d fi ai m n x proj adv dt (Some amin) (Some amax) (Some fmin) (Some fmax) order f ib ix =
  i_eval fi (i_build fi (Some (fmin ib)) (Some (fmax ib)) (line n (f ib)))
    (foot_update m (i_eval ai (i_build ai (Some (amin (proj ib))) (Some (amax (proj ib))) (line n (adv (proj ib)))))
      (x ix) (- dt)).
Proof.
  intros Ho ib ix Hb Hx. unfold advection_1d. cbn [option_map].
  rewrite (fold_points (fun ib ix => i_eval fi (i_build fi (Some (fmin ib)) (Some (fmax ib)) (line n (f ib)))
    (foot_update m (fun y => i_eval ai (i_build ai (Some (amin (proj ib))) (Some (amax (proj ib))) (line n (adv (proj ib)))) y) (x ix) (- dt)))).
  destruct (in_dec _ (ib, ix) order) as [H|H]; [reflexivity|]. exfalso. apply H, Ho. auto.
Qed.

(** ** Consequences *)
Lemma interpolant_ext {C} (itp : interpolator C) n f g y :
  (forall i, (i < n)%nat -> f i = g i) -> interpolant itp n f y = interpolant itp n g y.
Proof. intros H. unfold interpolant. now rewrite (line_ext n f g H). Qed.

Lemma interpolant_const {C} (itp : interpolator C) n x c y :
  exact_at itp n x (fun _ => c) y -> interpolant itp n (fun _ => c) y = c.
Proof. exact (fun H => H). Qed.

(** a field constant along the line moves every point by k dt, whatever the method *)
Lemma advection_1d_constant {C A} (fi : interpolator C) (ai : interpolator A) m n nb x proj adv dt order f ib ix k :
  all_points nb n order -> (ib < nb)%nat -> (ix < n)%nat ->
  (forall i, (i < n)%nat -> adv (proj ib) i = k) ->
  (forall t, 0 <= t <= 1 -> exact_at ai n x (fun _ => k) (x ix - t * (k * dt))) ->
  advection_1d fi ai m n x proj adv dt None None None None order f ib ix
  = interpolant fi n (f ib) (x ix - k * dt).
Proof.
  intros Ho Hb Hx Hk He. rewrite (advection_1d_result fi ai m n nb) by exact Ho.
  replace ((ib <? nb) && (ix <? n))%nat with true
    by (symmetry; apply andb_true_intro; split; now apply Nat.ltb_lt).
  f_equal. rewrite (foot_locally_constant m _ k); [ring|].
  intros t Ht. rewrite (interpolant_ext ai n _ (fun _ => k)) by exact Hk.
  replace (x ix + t * (k * - dt)) with (x ix - t * (k * dt)) by ring. apply (He t Ht).
Qed.
Lemma advection_1d_zero {C A} (fi : interpolator C) (ai : interpolator A) m n nb x proj adv order f :
  all_points nb n order -> interpolates fi n x -> forall ib ix,
  advection_1d fi ai m n x proj adv 0 None None None None order f ib ix = f ib ix.
Proof.
  intros Ho Hi ib ix. rewrite (advection_1d_result fi ai m n nb) by exact Ho.
  destruct (Nat.ltb_spec ib nb), (Nat.ltb_spec ix n); cbn [andb]; try reflexivity.
  rewrite Ropp_0, foot_zero. now apply Hi.
Qed.
