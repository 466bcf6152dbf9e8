(** The equilibrium of the vortex merger. *)
From Verif Require Import Lib DerivModel MathModel GciModel GciSpec GciDio.
Open Scope R_scope.

(** ** norms *)
Lemma run_max_from l : forall m, let r := fold_left (fun m x => if Rlt_dec x m then m else x) l m in
  m <= r /\ (forall x, In x l -> x <= r) /\ (r = m \/ In r l).
Proof.
  induction l as [|a l IH]; cbn [fold_left In]; intros m.
  - cbv zeta. split; [lra|]. split; [contradiction|now left].
  - specialize (IH (if Rlt_dec a m then m else a)). cbv zeta in IH. destruct IH as (A & B & C). destruct (Rlt_dec a m) as [L|L].
    + split; [exact A|]. split; [intros x [<-|H]; [lra|auto]|]. destruct C; auto.
    + split; [lra|]. split; [intros x [<-|H]; [exact A|auto]|]. destruct C as [->|]; auto.
Qed.
Lemma run_max_norm l : sup_norm l (running_max (map Rabs l)).
Proof.
  destruct (run_max_from (map Rabs l) 0) as (A & B & C). fold (running_max (map Rabs l)) in A, B, C. set (m := running_max (map Rabs l)) in *. split.
  - intros x H. apply B. apply in_map. exact H.
  - destruct l as [|a l]; [left; split; reflexivity|]. right. destruct C as [->|C].
    + exists a. split; [now left|]. pose proof (B (Rabs a) (or_introl eq_refl)). pose proof (Rabs_pos a). lra.
    + apply in_map_iff in C as (x & E & H). exists x. auto.
Qed.
Lemma sup_norm_unique l m m' : sup_norm l m -> sup_norm l m' -> m = m'.
Proof.
  intros [A [[E Z]|(x & H & E)]] [A' [[E' Z']|(x' & H' & E')]]; try congruence.
  - subst l. contradiction.
  - subst l. contradiction.
  - specialize (A _ H'). specialize (A' _ H). lra.
Qed.
Lemma sup_norm_times c l m : sup_norm l m -> sup_norm (times c l) (Rabs c * m).
Proof.
  intros [A B]. split.
  - intros x H. apply in_map_iff in H as (y & <- & H). rewrite Rabs_mult. apply Rmult_le_compat_l; [apply Rabs_pos|]. exact (A _ H).
  - destruct B as [[-> ->]|(x & H & <-)]; [left; split; [reflexivity|ring]|]. right. exists (c * x). split; [apply (in_map (fun x => c * x)); exact H|apply Rabs_mult].
Qed.
Lemma sup_norm_pos l m : sup_norm l m -> 0 <= m.
Proof. intros [_ [[_ ->]|(x & _ & <-)]]; [lra|apply Rabs_pos]. Qed.
Lemma settled_iff tau sigma phi phi' c : 0 <= tau ->
  (settled tau (sigma, phi) (map (fun s => c * s) sigma, phi') <-> ~ tau < running_max (map (fun s => Rabs (s - c * s)) sigma)).
Proof.
  intros T. destruct (run_max_from (map (fun s => Rabs (s - c * s)) sigma) 0) as (A & B & C).
  fold (running_max (map (fun s => Rabs (s - c * s)) sigma)) in A, B, C. set (m := running_max _) in *. unfold settled; cbn [fst snd]. split.
  - intros S. destruct C as [->|C]; [lra|]. apply in_map_iff in C as (x & E & H). enough (Rabs (x - c * x) <= tau) by lra. apply S.
    clear - H. induction sigma as [|a l IH]; [contradiction|]. destruct H as [<-|H]; [now left|right; auto].
  - intros L a b H. enough (Rabs (a - b) <= m) by lra. apply B. apply in_map_iff. exists a.
    assert (b = c * a /\ In a sigma) as [-> Q]; [|split; [reflexivity|exact Q]].
    clear - H. induction sigma as [|x l IH]; [contradiction|]. destruct H as [[= <- <-]|H]; [split; [reflexivity|now left]|]. destruct (IH H). split; [assumption|now right].
Qed.

Section Run.
Context (poisson : list R -> res (list R)) (f : R -> R) (phi_max tau : R).
Context (T : 0 <= tau).
Notation step := (eq_step poisson f phi_max).
Lemma step_fun s a b : step s a -> step s b -> a = b.
Proof.
  intros (x & m & A & B & C & ->) (x' & m' & A' & B' & C' & ->). assert (x' = x) by congruence. subst x'.
  rewrite (sup_norm_unique _ _ _ B B'). reflexivity.
Qed.
Lemma iteration_some sigma phi s' p' dd : eq_iteration poisson f phi_max sigma phi = Ok (Some (s', p', dd)) ->
  step (sigma, phi) (s', p') /\ (settled tau (sigma, phi) (s', p') <-> ~ tau < dd).
Proof.
  unfold eq_iteration. change (density_of f sigma phi) with (product f sigma phi). destruct (poisson (product f sigma phi)) as [star| | |] eqn:P; try discriminate. cbn [bind].
  set (nn := running_max (map Rabs star)). unfold nz. destruct (Req_EM_T nn 0) as [|N]; cbn [negb]; [discriminate|].
  intros E. injection E as <- <- <-. split; [|apply settled_iff; exact T]. exists star, nn. repeat split; auto; apply run_max_norm.
Qed.
Lemma iteration_none sigma phi : eq_iteration poisson f phi_max sigma phi = Ok None <-> exists star, poisson (product f sigma phi) = Ok star /\ sup_norm star 0.
Proof.
  unfold eq_iteration. change (density_of f sigma phi) with (product f sigma phi). destruct (poisson (product f sigma phi)) as [star| | |] eqn:P; cbn [bind];
    try (split; [discriminate|intros (s & E & _); discriminate]).
  pose proof (run_max_norm star) as M. unfold nz. destruct (Req_EM_T (running_max (map Rabs star)) 0) as [E|N]; cbn [negb].
  - split; [intros _; exists star; rewrite E in M; auto|reflexivity].
  - split; [discriminate|]. intros (s & Es & Q). assert (s = star) by congruence. subst s. elim N. exact (sup_norm_unique _ _ _ M Q).
Qed.
Lemma iteration_total s s' : step s s' -> exists dd, eq_iteration poisson f phi_max (fst s) (snd s) = Ok (Some (fst s', snd s', dd)).
Proof.
  intros (star & m & P & M & N & ->). unfold eq_iteration. change (density_of f (fst s) (snd s)) with (product f (fst s) (snd s)). rewrite P. cbn [bind].
  rewrite (sup_norm_unique _ _ _ (run_max_norm star) M). rewrite (nz_true _ N). cbn [negb fst snd]. eexists. reflexivity.
Qed.
Definition shift (s : list R * list R) (ss : nat -> list R * list R) (i : nat) := match i with O => s | S i => ss i end.
Definition run_from (left_ k : nat) (ss : nat -> list R * list R) : Prop :=
  (1 <= k <= S left_)%nat /\ (forall i, (i < k)%nat -> step (ss i) (ss (S i))) /\ (forall i, (S i < k)%nat -> ~ settled tau (ss i) (ss (S i))) /\
  (settled tau (ss (k - 1)%nat) (ss k) \/ k = S left_).
Lemma do_sound left_ : forall s s', eq_do poisson f phi_max tau left_ (fst s) (snd s) = Ok (Some s') ->
  exists k ss, run_from left_ k ss /\ ss 0%nat = s /\ ss k = s'.
Proof.
  induction left_ as [|l IH]; intros [sigma phi] s'; cbn [eq_do fst snd].
  - destruct (eq_iteration poisson f phi_max sigma phi) as [[[[a b] dd]|]| | |] eqn:E; cbn [bind]; try discriminate. intros [= <-].
    exists 1%nat, (shift (sigma, phi) (fun _ => (a, b))). destruct (iteration_some _ _ _ _ _ E) as [ST _]. split; [|split; reflexivity].
    split; [lia|]. split; [intros i H; assert (i = 0%nat) as -> by lia; exact ST|]. split; [intros; lia|right; reflexivity].
  - destruct (eq_iteration poisson f phi_max sigma phi) as [[[[a b] dd]|]| | |] eqn:E; cbn [bind]; try discriminate.
    destruct (iteration_some _ _ _ _ _ E) as [ST D]. destruct (Rlt_dec tau dd) as [L|L].
    + intros H. destruct (IH (a, b) s' H) as (k & ss & (A & B & C & F) & E0 & EK). exists (S k), (shift (sigma, phi) ss). split; [|split; [reflexivity|exact EK]].
      split; [lia|]. split; [|split].
      * intros [|i] Hi; cbn [shift]; [rewrite E0; exact ST|apply B; lia].
      * intros [|i] Hi; cbn [shift]; [rewrite E0; tauto|apply C; lia].
      * destruct F as [F|F]; [left|right; lia]. destruct k as [|k]; [lia|]. replace (S (S k) - 1)%nat with (S k) by lia. cbn [shift]. replace (S k - 1)%nat with k in F by lia. exact F.
    + intros [= <-]. exists 1%nat, (shift (sigma, phi) (fun _ => (a, b))). split; [|split; reflexivity].
      split; [lia|]. split; [intros i H; assert (i = 0%nat) as -> by lia; exact ST|]. split; [intros; lia|left; cbn; tauto].
Qed.
Lemma do_complete left_ : forall k ss, run_from left_ k ss -> eq_do poisson f phi_max tau left_ (fst (ss 0%nat)) (snd (ss 0%nat)) = Ok (Some (ss k)).
Proof.
  induction left_ as [|l IH]; intros k ss (A & B & C & F).
  - assert (k = 1%nat) as -> by lia. cbn [eq_do]. destruct (iteration_total _ _ (B 0%nat ltac:(lia))) as (dd & E). rewrite E. cbn [bind]. rewrite <- surjective_pairing. reflexivity.
  - cbn [eq_do]. destruct (iteration_total _ _ (B 0%nat ltac:(lia))) as (dd & E). rewrite E. cbn [bind].
    destruct (iteration_some _ _ _ _ _ E) as [_ D]. rewrite <- !surjective_pairing in D. destruct (Rlt_dec tau dd) as [L|L].
    + assert (K : (2 <= k)%nat). { destruct (le_lt_dec 2 k); [assumption|]. assert (k = 1%nat) as -> by lia. destruct F as [F|F]; [|lia]. cbn in F. tauto. }
      destruct k as [|k]; [lia|]. apply (IH k (fun i => ss (S i))). split; [lia|]. split; [intros i Hi; apply B; lia|]. split; [intros i Hi; apply C; lia|].
      destruct F as [F|F]; [left|right; lia]. replace (S (k - 1)) with (S k - 1)%nat by lia. exact F.
    + assert (K : k = 1%nat). { destruct (le_lt_dec 2 k) as [K|K]; [|lia]. elim (C 0%nat ltac:(lia)). tauto. } subst k. rewrite <- surjective_pairing. reflexivity.
Qed.
Lemma do_none left_ : forall s, eq_do poisson f phi_max tau left_ (fst s) (snd s) = Ok None ->
  exists k ss star, (k <= left_)%nat /\ ss 0%nat = s /\ (forall i, (i < k)%nat -> step (ss i) (ss (S i)) /\ ~ settled tau (ss i) (ss (S i))) /\
    poisson (product f (fst (ss k)) (snd (ss k))) = Ok star /\ sup_norm star 0.
Proof.
  induction left_ as [|l IH]; intros [sigma phi]; cbn [eq_do fst snd].
  - destruct (eq_iteration poisson f phi_max sigma phi) as [[[[a b] dd]|]| | |] eqn:E; cbn [bind]; try discriminate. intros _.
    apply iteration_none in E as (star & P & N). exists 0%nat, (fun _ => (sigma, phi)), star. repeat split; auto; try lia; apply N.
  - destruct (eq_iteration poisson f phi_max sigma phi) as [[[[a b] dd]|]| | |] eqn:E; cbn [bind]; try discriminate.
    + destruct (iteration_some _ _ _ _ _ E) as [ST D]. destruct (Rlt_dec tau dd) as [L|L]; [|discriminate].
      intros H. destruct (IH (a, b) H) as (k & ss & star & A & E0 & B & P & N). exists (S k), (shift (sigma, phi) ss), star.
      split; [lia|]. split; [reflexivity|]. split; [|split; [exact P|exact N]]. intros [|i] Hi; cbn [shift]; [rewrite E0; tauto|apply B; lia].
    + intros _. apply iteration_none in E as (star & P & N). exists 0%nat, (fun _ => (sigma, phi)), star. repeat split; auto; try lia; apply N.
Qed.
Lemma do_total left_ : (forall rho, exists phi, poisson rho = Ok phi) -> forall s, exists r, eq_do poisson f phi_max tau left_ (fst s) (snd s) = Ok r.
Proof.
  intros TOT. induction left_ as [|l IH]; intros [sigma phi]; cbn [eq_do fst snd]; unfold eq_iteration at 1; destruct (TOT (density_of f sigma phi)) as (star & ->); cbn [bind];
    destruct (negb (nz _)); cbn [bind]; eauto. destruct (Rlt_dec tau _); [|eauto]. apply (IH (_, _)).
Qed.
Lemma run_count count_max k ss : run_from (Z.to_nat (count_max - 1)) k ss <-> eq_run poisson f phi_max tau count_max k ss.
Proof.
  unfold run_from, eq_run. replace (S (Z.to_nat (count_max - 1))) with (Nat.max 1 (Z.to_nat count_max)) by lia. reflexivity.
Qed.
End Run.

(** ** the centre *)
Lemma replace_error (l : list R) i x : forall j, (i < length l)%nat -> nth_error (replace_nth l i x) j = if (j =? i)%nat then Some x else nth_error l j.
Proof.
  revert i. induction l as [|a l IH]; cbn [length]; intros i j H; [lia|]. destruct i as [|i], j as [|j]; cbn [replace_nth nth_error Nat.eqb]; auto. apply IH. lia.
Qed.
Lemma centre_loop (v : R) : forall n k (rho rho' : list R) k', nth_error rho 0 = Some v ->
  (fix loop n (k : nat) rho := match n with O => Ok (k, rho) | S n => let* v := rd rho 0 in let* rho := wr rho (Z.of_nat k) v in loop n (S k) rho end) n k rho = Ok (k', rho') ->
  forall i, nth_error rho' i = if (k <=? i)%nat && (i <? k + n)%nat then Some v else nth_error rho i.
Proof.
  induction n as [|n IH]; intros k rho rho' k' V.
  - intros [= <- <-] i. replace (k + 0)%nat with k by lia.
    destruct (Nat.leb_spec k i), (Nat.ltb_spec i k); try lia; reflexivity.
  - cbn beta iota. destruct (rd rho 0) as [w| | |] eqn:Er; cbn [bind]; try discriminate.
    destruct (wr rho (Z.of_nat k) w) as [rho1| | |] eqn:Ew; cbn [bind]; try discriminate. intros E.
    assert (W : w = v). { unfold rd in Er. change (Z.to_nat 0) with 0%nat in Er. rewrite V in Er. cbn in Er. congruence. } subst w.
    assert (K : (k < length rho)%nat /\ rho1 = replace_nth rho k v).
    { unfold wr in Ew. destruct (_ || _)%bool eqn:Eb in Ew; [discriminate|]. apply orb_false_iff in Eb as [_ Eb]. apply Z.leb_gt in Eb. split; [lia|]. rewrite Nat2Z.id in Ew. congruence. }
    destruct K as [K ->]. assert (V1 : nth_error (replace_nth rho k v) 0 = Some v) by (rewrite replace_error by exact K; destruct (0 =? k)%nat; auto).
    pose proof (IH _ _ _ _ V1 E) as B. intros i. rewrite B, replace_error by exact K.
    destruct (Nat.eqb_spec i k) as [->|N].
    + destruct (Nat.leb_spec (S k) k), (Nat.leb_spec k k), (Nat.ltb_spec k (k + S n)); try lia; reflexivity.
    + destruct (Nat.leb_spec (S k) i), (Nat.leb_spec k i), (Nat.ltb_spec i (S k + n)), (Nat.ltb_spec i (k + S n)); try lia; reflexivity.
Qed.
Lemma centre_total nt (rho : list R) : forall n k, (0 < length rho)%nat -> (k + n <= nt)%nat -> (nt <= length rho)%nat -> exists r,
  (fix loop n (k : nat) rho := match n with O => Ok (k, rho) | S n => let* v := rd rho 0 in let* rho := wr rho (Z.of_nat k) v in loop n (S k) rho end) n k rho = Ok r.
Proof.
  intros n. revert rho. induction n as [|n IH]; intros rho k L A B; [eexists; reflexivity|]. cbn beta iota. unfold rd. cbn [Z.ltb Z.compare].
  change (Z.to_nat 0) with 0%nat. destruct (nth_error rho 0) as [v|] eqn:E; [|apply nth_error_None in E; lia]. cbn [bind]. unfold wr.
  assert (Q : ((Z.of_nat k <? 0)%Z || (Z.of_nat (length rho) <=? Z.of_nat k)%Z)%bool = false) by (apply orb_false_iff; split; [apply Z.ltb_ge; lia|apply Z.leb_gt; lia]).
  rewrite Q. cbn [bind]. apply IH; rewrite ?replace_nth_length; lia.
Qed.
Lemma unify_sound rs nt rho rho' : unify_centre rs nt rho = Ok rho' -> (0 < nt)%nat ->
  (at_pole rs -> forall j, (j < nt)%nat -> at_rt nt 0 j rho' = at_rt nt 0 0 rho) /\ (~ at_pole rs -> rho' = rho) /\
  forall i j, (1 <= i)%nat -> at_rt nt i j rho' = at_rt nt i j rho.
Proof.
  unfold unify_centre. destruct rs as [|r0 t]; [discriminate|]. intros E N. unfold ltb in E. destruct (Rlt_dec (Rabs r0) (/ 10 ^ 15)) as [L|L].
  - match type of E with context [bind ?e _] => destruct e as [[k' rho1]| | |] eqn:E1 end; cbn [bind] in E; try discriminate. assert (rho1 = rho') by congruence. subst rho1. clear E.
    destruct (nth_error rho 0) as [v|] eqn:V.
    + pose proof (centre_loop v _ _ _ _ _ V E1) as B. unfold at_rt. split; [|split].
      * intros _ j H. rewrite B. cbn [Nat.mul Nat.add Nat.leb]. rewrite V. destruct (Nat.ltb_spec j nt); [reflexivity|lia].
      * intros C. elim C. exists r0, t. split; [reflexivity|exact L].
      * intros i j H. rewrite B. cbn [Nat.leb Nat.add]. destruct (Nat.ltb_spec (i * nt + j) nt) as [Q|]; [|reflexivity]. cbn in Q. nia.
    + exfalso. destruct nt as [|nt]; [lia|]. cbn [bind] in E1. unfold rd in E1. cbn [Z.ltb Z.compare] in E1. change (Z.to_nat 0) with 0%nat in E1. rewrite V in E1. discriminate.
  - assert (rho' = rho) as -> by congruence. split; [|split; [reflexivity|reflexivity]]. intros (a & b & [= <- <-] & C). contradiction.
Qed.
Lemma unify_total rs nt rho : rs <> [] -> (nt <= length rho)%nat -> (0 < nt)%nat -> exists r, unify_centre rs nt rho = Ok r.
Proof.
  intros NE L N. unfold unify_centre. destruct rs as [|r0 t]; [contradiction|]. destruct (ltb _ _); [|eauto].
  destruct (centre_total nt rho nt 0 ltac:(lia) ltac:(lia) L) as ((k & r) & ->). cbn [bind]. eauto.
Qed.

(** ** the whole search *)
Lemma find_sound poisson f phi_max tau rs nt count_max sigma phi sigma' phi' rho : 0 <= tau -> (0 < nt)%nat ->
  find_equilibrium poisson f phi_max tau rs nt count_max sigma phi = Ok (Some (sigma', phi', rho)) ->
  exists k ss, eq_run poisson f phi_max tau count_max k ss /\ ss 0%nat = (sigma, phi) /\ ss k = (sigma', phi') /\
    (forall i j, (1 <= i)%nat -> at_rt nt i j rho = at_rt nt i j (product f sigma' phi')) /\
    (at_pole rs -> forall j, (j < nt)%nat -> at_rt nt 0 j rho = at_rt nt 0 0 (product f sigma' phi')) /\
    (~ at_pole rs -> rho = product f sigma' phi').
Proof.
  intros T N. unfold find_equilibrium. destruct (eq_do poisson f phi_max tau (Z.to_nat (count_max - 1)) sigma phi) as [[[a b]|]| | |] eqn:E; cbn [bind]; try discriminate.
  destruct (unify_centre rs nt (density_of f a b)) as [r| | |] eqn:U; cbn [bind]; try discriminate. intros H.
  assert (a = sigma') by congruence. assert (b = phi') by congruence. assert (r = rho) by congruence. subst a b r.
  destruct (do_sound poisson f phi_max tau T _ (sigma, phi) _ E) as (k & ss & RUN & E0 & EK). exists k, ss. rewrite run_count in RUN.
  destruct (unify_sound _ _ _ _ U N) as (A & B & C). split; [exact RUN|]. split; [exact E0|]. split; [exact EK|]. split; [exact C|]. split; [exact A|exact B].
Qed.
Lemma find_complete poisson f phi_max tau rs nt count_max k ss : 0 <= tau -> (0 < nt)%nat -> rs <> [] ->
  eq_run poisson f phi_max tau count_max k ss -> (nt <= length (product f (fst (ss k)) (snd (ss k))))%nat ->
  exists rho, find_equilibrium poisson f phi_max tau rs nt count_max (fst (ss 0%nat)) (snd (ss 0%nat)) = Ok (Some (fst (ss k), snd (ss k), rho)).
Proof.
  intros T N NE RUN L. rewrite <- run_count in RUN. unfold find_equilibrium. rewrite (do_complete poisson f phi_max tau T _ _ _ RUN). cbn [bind].
  destruct (ss k) as [a b]; cbn [fst snd] in *. change (density_of f a b) with (product f a b). destruct (unify_total rs nt _ NE L N) as (r & ->). cbn [bind]. eauto.
Qed.
Lemma find_none poisson f phi_max tau rs nt count_max sigma phi : 0 <= tau ->
  find_equilibrium poisson f phi_max tau rs nt count_max sigma phi = Ok None ->
  exists k ss star, (k < Nat.max 1 (Z.to_nat count_max))%nat /\ ss 0%nat = (sigma, phi) /\ (forall i, (i < k)%nat -> eq_step poisson f phi_max (ss i) (ss (S i))) /\
    poisson (product f (fst (ss k)) (snd (ss k))) = Ok star /\ forall x, In x star -> x = 0.
Proof.
  intros T. unfold find_equilibrium. destruct (eq_do poisson f phi_max tau (Z.to_nat (count_max - 1)) sigma phi) as [[[a b]|]| | |] eqn:E; cbn [bind]; try discriminate.
  { destruct (unify_centre _ _ _); discriminate. }
  intros _. destruct (do_none poisson f phi_max tau T _ (sigma, phi) E) as (k & ss & star & A & B & C & D & Z & _). exists k, ss, star.
  split; [lia|]. split; [exact B|]. split; [intros i H; apply C; exact H|]. split; [exact D|]. intros x H. specialize (Z x H). pose proof (Rabs_pos x).
  destruct (Req_dec x 0); [assumption|]. pose proof (Rabs_pos_lt x H1). lra.
Qed.

(** ** consequences *)
Lemma step_norm poisson f phi_max s s' : eq_step poisson f phi_max s s' -> sup_norm (snd s') (Rabs phi_max).
Proof.
  intros (star & m & P & M & N & ->). cbn [snd]. pose proof (sup_norm_pos _ _ M). replace (Rabs phi_max) with (Rabs (phi_max / m) * m); [apply sup_norm_times; exact M|].
  unfold Rdiv. rewrite Rabs_mult, (Rabs_pos_eq (/ m)) by (left; apply Rinv_0_lt_compat; lra). field. exact N.
Qed.
Lemma step_scale poisson f phi_max s s' : eq_step poisson f phi_max s s' -> exists c, fst s' = times c (fst s).
Proof. intros (star & m & _ & _ & _ & ->). eexists; reflexivity. Qed.
Lemma product_times f c sigma phi : product f (times c sigma) phi = times c (product f sigma phi).
Proof.
  revert phi. induction sigma as [|a l IH]; intros [|b phi]; try reflexivity. unfold product, times in *. cbn [map combine fst snd]. rewrite IH. f_equal. ring.
Qed.
Lemma step_poisson poisson f phi_max s s' : homogeneous poisson -> eq_step poisson f phi_max s s' -> poisson (product f (fst s') (snd s)) = Ok (snd s').
Proof. intros H (star & m & P & _ & _ & ->). cbn [fst snd]. rewrite product_times. apply H. exact P. Qed.
Lemma run_sigma poisson f phi_max tau count_max k ss c0 n : eq_run poisson f phi_max tau count_max k ss -> fst (ss 0%nat) = repeat c0 n ->
  forall i, (i <= k)%nat -> exists c, fst (ss i) = repeat c n.
Proof.
  intros (A & B & _) E. induction i as [|i IH]; intros H; [eauto|]. destruct IH as (c & Ec); [lia|]. destruct (step_scale _ _ _ _ _ (B i ltac:(lia))) as (c' & ->).
  rewrite Ec. exists (c' * c). unfold times. clear. induction n; cbn; congruence.
Qed.
Lemma run_last poisson f phi_max tau count_max k ss : eq_run poisson f phi_max tau count_max k ss -> eq_step poisson f phi_max (ss (k - 1)%nat) (ss k).
Proof. intros (A & B & _). replace k with (S (k - 1)) at 2 by lia. apply B. lia. Qed.

(** ** a settled sigma is not an equilibrium *)
Definition half_solver (rho : list R) : res (list R) := match rho with [a; b] => Ok [a; b / 2] | _ => Ub end.
Lemma half_homogeneous : homogeneous half_solver.
Proof.
  intros c [|a [|b [|e l]]] phi E; try discriminate. injection E as <-. cbn. do 3 f_equal. field.
Qed.
Definition hs (i : nat) : list R * list R := match i with O => ([1; 1], [1; 1]) | S O => ([1; 1], [1; 1 / 2]) | _ => ([], []) end.
Lemma half_run : eq_run half_solver (fun x => x) 1 0 25 1 hs.
Proof.
  split; [lia|]. split; [|split; [intros; lia|]].
  - intros i H. assert (i = 0%nat) as -> by lia. exists [1 * 1; 1 * 1 / 2], 1. cbn [hs fst snd product combine map]. split; [reflexivity|]. split; [|split; [lra|]].
    + split.
      * intros x [<-|[<-|[]]]; rewrite Rabs_pos_eq; lra.
      * right. exists (1 * 1). split; [now left|]. rewrite Rabs_pos_eq; lra.
    + unfold times; cbn [map]. replace (1 / 1) with 1 by field. rewrite !Rmult_1_l. reflexivity.
  - left. intros a b [[= <- <-]|[[= <- <-]|[]]]; rewrite Rminus_eq_0, Rabs_R0; lra.
Qed.
Lemma settled_refuted : ~ (forall poisson f phi_max tau count_max k ss, homogeneous poisson -> 0 <= tau ->
  eq_run poisson f phi_max tau count_max k ss -> settled 0 (ss (k - 1)%nat) (ss k) -> poisson (product f (fst (ss k)) (snd (ss k))) = Ok (snd (ss k))).
Proof.
  intros H. assert (Z : settled 0 (hs (1 - 1)) (hs 1)).
  { intros a b [[= <- <-]|[[= <- <-]|[]]]; rewrite Rminus_eq_0, Rabs_R0; lra. }
  specialize (H _ _ _ _ _ _ _ half_homogeneous (Rle_refl 0) half_run Z). cbn in H. injection H as _ E. lra.
Qed.
(** ** leaving at count_max is not reported *)
Definition double_solver (rho : list R) : res (list R) := Ok (times 2 rho).
Definition ds (i : nat) : list R * list R := match i with O => ([1], [1]) | _ => ([1 / 2], [1]) end.
Lemma double_run : eq_run double_solver (fun x => x) 1 0 1 1 ds.
Proof.
  split; [lia|]. split; [|split; [intros; lia|right; reflexivity]]. intros i H. assert (i = 0%nat) as -> by lia. exists [2 * (1 * 1)], 2. cbn [ds fst snd product combine map]. split; [reflexivity|].
  split; [|split; [lra|]].
  - split; [intros x [<-|[]]; rewrite Rabs_pos_eq; lra|]. right. exists (2 * (1 * 1)). split; [now left|]. rewrite Rabs_pos_eq; lra.
  - unfold times; cbn [map]. replace (1 / 2 * (2 * (1 * 1))) with 1 by field. rewrite Rmult_1_r. reflexivity.
Qed.
Lemma silent_refuted : ~ (forall poisson f phi_max tau rs nt count_max sigma phi r, 0 <= tau -> (0 < nt)%nat -> (1 <= count_max)%Z ->
  find_equilibrium poisson f phi_max tau rs nt count_max sigma phi = Ok (Some r) ->
  forall k ss, eq_run poisson f phi_max tau count_max k ss -> ss 0%nat = (sigma, phi) -> settled tau (ss (k - 1)%nat) (ss k)).
Proof.
  intros H. assert (L : (1 <= length (product (fun x => x) (fst (ds 1)) (snd (ds 1))))%nat) by (cbn; lia).
  destruct (find_complete double_solver (fun x => x) 1 0 [1] 1 1 1 ds (Rle_refl 0) ltac:(lia) ltac:(discriminate) double_run L) as (rho & E).
  specialize (H _ _ _ _ _ _ _ _ _ _ (Rle_refl 0) (le_n 1) (Z.le_refl 1) E _ _ double_run (surjective_pairing _)). specialize (H 1 (1 / 2) (or_introl eq_refl)).
  rewrite Rabs_pos_eq in H; lra.
Qed.

(** ** the statements *)
Lemma result_full poisson f phi_max tau count_max k ss : eq_run poisson f phi_max tau count_max k ss ->
  sup_norm (snd (ss k)) (Rabs phi_max) /\
  (forall c n, fst (ss 0%nat) = repeat c n -> exists c', fst (ss k) = repeat c' n) /\
  (homogeneous poisson -> poisson (product f (fst (ss k)) (snd (ss (k - 1)%nat))) = Ok (snd (ss k)) /\
     (snd (ss (k - 1)%nat) = snd (ss k) -> poisson (product f (fst (ss k)) (snd (ss k))) = Ok (snd (ss k)))).
Proof.
  intros H. pose proof (run_last _ _ _ _ _ _ _ H) as L. split; [exact (step_norm _ _ _ _ _ L)|]. split.
  - intros c n E. exact (run_sigma _ _ _ _ _ _ _ _ _ H E k (le_n k)).
  - intros HO. pose proof (step_poisson _ _ _ _ _ HO L) as P. split; [exact P|]. intros E. rewrite E in P. exact P.
Qed.
Lemma default_full poisson f phi_max tau rs nt xy sigma' phi' rho : 0 <= tau -> (0 < nt)%nat ->
  set_equilibrium poisson f phi_max tau rs nt xy = Ok (Some (sigma', phi', rho)) ->
  exists k ss c, eq_run poisson f phi_max tau 25 k ss /\ (k <= 25)%nat /\ fst (ss 0%nat) = repeat (3 / 10) (length xy) /\
    snd (ss 0%nat) = map (fun p => exp (- (fst p ^ 2 + snd p ^ 2) / (2 * (3 / 10) ^ 2))) xy /\ ss k = (sigma', phi') /\
    sigma' = repeat c (length xy) /\ sup_norm phi' (Rabs phi_max).
Proof.
  intros T N H. destruct (find_sound _ _ _ _ _ _ _ _ _ _ _ _ T N H) as (k & ss & RUN & E0 & EK & _). destruct (result_full _ _ _ _ _ _ _ RUN) as (A & B & _).
  assert (S3 : fst (ss 0%nat) = repeat (3 / 10) (length xy)).
  { rewrite E0. cbn [fst]. replace 0.3 with (3 / 10) by lra. clear. induction xy; cbn; congruence. }
  destruct (B _ _ S3) as (c & C). exists k, ss, c. split; [exact RUN|]. split; [destruct RUN as [Q _]; change (Nat.max 1 (Z.to_nat 25)) with 25%nat in Q; lia|]. split; [exact S3|]. split; [|split; [exact EK|]].
  - rewrite E0. cbn [snd]. apply map_ext. intros p. f_equal. replace 0.3 with (3 / 10) by lra. field.
  - rewrite EK in A, C. cbn [fst snd] in *. auto.
Qed.
