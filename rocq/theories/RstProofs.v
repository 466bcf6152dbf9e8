(** Crash and restart of the 1d1v executables. *)
From Coq Require Import Lia Lra ZArith List Reals.
From Verif Require Import RstSpec SpeciesProofs.
Import ListNotations.
Open Scope R_scope.

Lemma to_int_small z : (- 2147483648 <= z < 2147483648)%Z -> to_int z = z.
Proof. intros H. unfold to_int. rewrite Z.mod_small by lia. lia. Qed.

Section Ops.
Context {A : Type}.
Lemma save_all_app {B} (save : B -> res (list (op A))) l l' a b :
  save_all save l = Ok a -> save_all save l' = Ok b -> save_all save (l ++ l') = Ok (a ++ b).
Proof.
  revert a. induction l as [|e l IH]; intros a; cbn [save_all app].
  - intros [= <-] H. exact H.
  - destruct (save e) as [x| | |]; cbn; try discriminate.
    destruct (save_all save l) as [y| | |] eqn:Y; cbn; try discriminate.
    intros [= <-] H. rewrite (IH y eq_refl H). cbn. rewrite app_assoc. reflexivity.
Qed.
Lemma save_all_map {B C} (save : B -> res (list (op A))) (g : C -> B) (h : C -> list (op A)) l :
  (forall x, In x l -> save (g x) = Ok (h x)) -> save_all save (map g l) = Ok (flat_map h l).
Proof.
  induction l as [|x l IH]; intros H; cbn [map save_all flat_map]; [reflexivity|].
  rewrite H by now left. cbn. rewrite IH by (intros; apply H; now right). reflexivity.
Qed.

(** the operations of the files k, k + 1, ..., k + n - 1 *)
Definition write_files (k : Z) (content : nat -> A) (n : nat) : list (op A) :=
  flat_map (fun j => [Tear (k + Z.of_nat j); Write (k + Z.of_nat j) (content j)]) (seq 0 n).
Lemma write_files_S k c n :
  write_files k c (S n) = (write_files k c n ++ [Tear (k + Z.of_nat n); Write (k + Z.of_nat n) (c n)])%list.
Proof. unfold write_files. rewrite seq_S, flat_map_app. reflexivity. Qed.
Lemma write_files_length k c n : length (write_files k c n) = (2 * n)%nat.
Proof. induction n as [|n IH]; [reflexivity|]. rewrite write_files_S, app_length, IH. cbn. lia. Qed.

(** only the iterations which are multiples of nb write *)
Lemma regroup (nb : nat) k (content : nat -> A) n : (0 < nb)%nat ->
  flat_map (fun i => if (Z.rem (Z.of_nat i) (Z.of_nat nb) =? 0)%Z
                     then [Tear (k + Z.quot (Z.of_nat i) (Z.of_nat nb)); Write (k + Z.quot (Z.of_nat i) (Z.of_nat nb)) (content i)]
                     else []) (seq 0 (S n)) =
  write_files k (fun j => content (j * nb)%nat) (S (n / nb)).
Proof.
  intros Hnb. induction n as [|n IH].
  - cbn [seq flat_map]. rewrite Z.rem_0_l, Z.quot_0_l, Nat.div_0_l by lia. reflexivity.
  - rewrite seq_S, flat_map_app, IH. cbn [flat_map plus]. rewrite app_nil_r.
    rewrite Z.rem_mod_nonneg, Z.quot_div_nonneg by lia.
    assert (D : (S n = nb * (S n / nb) + S n mod nb)%nat) by (apply Nat.div_mod; lia).
    pose proof (Nat.mod_upper_bound (S n) nb ltac:(lia)) as U.
    rewrite <- Nat2Z.inj_mod, <- Nat2Z.inj_div.
    destruct (Z.eqb_spec (Z.of_nat (S n mod nb)) 0) as [Z0|Z0].
    + assert (Q : (S n / nb = S (n / nb))%nat).
      { destruct (S n / nb)%nat as [|q] eqn:Eq; [lia|]. f_equal.
        apply Nat.div_unique with (r := (nb - 1)%nat); nia. }
      rewrite Q. rewrite (write_files_S k _ (S (n / nb))). f_equal. f_equal. f_equal. f_equal. f_equal. rewrite <- Q. lia.
    + assert (Q : (S n / nb = n / nb)%nat).
      { apply Nat.div_unique with (r := (S n mod nb - 1)%nat); lia. }
      rewrite Q, app_nil_r. reflexivity.
Qed.

(** the disk after the first c operations *)
Lemma crashed_files d k (content : nat -> A) n c x :
  let c' := Nat.min c (2 * n) in
  crashed d (write_files k content n) c x =
  (if (k <=? x) && (x <? k + Z.of_nat (c' / 2)) then File (content (Z.to_nat (x - k)))
   else if (x =? k + Z.of_nat (c' / 2)) && Nat.odd c' then Torn else d x)%Z.
Proof.
  cbv zeta. revert c. induction n as [|n IH]; intros c.
  - rewrite Nat.min_0_r. change (0 / 2)%nat with 0%nat. change (Nat.odd 0) with false. rewrite Bool.andb_false_r.
    unfold crashed, write_files. cbn [seq flat_map]. rewrite firstn_nil. cbn [fold_left].
    destruct (Z.leb_spec k x), (Z.ltb_spec x (k + Z.of_nat 0)); cbn [andb]; try reflexivity; lia.
  - rewrite write_files_S. unfold crashed in *. rewrite firstn_app, write_files_length, fold_left_app.
    destruct (Nat.le_gt_cases c (2 * n)) as [L|L].
    + rewrite !Nat.min_l by lia. replace (c - 2 * n)%nat with 0%nat by lia. cbn [firstn fold_left].
      rewrite IH, Nat.min_l by lia. reflexivity.
    + assert (IH' := IH c). rewrite Nat.min_r in IH' by lia. rewrite Nat.mul_comm, Nat.div_mul in IH' by lia.
      replace (Nat.odd (n * 2)) with false in IH' by (rewrite Nat.odd_mul; change (Nat.odd 2) with false; now rewrite Bool.andb_false_r).
      rewrite Bool.andb_false_r in IH'.
      set (d' := fold_left apply (firstn c (write_files k content n)) d) in *.
      destruct (Nat.eq_dec c (2 * n + 1)) as [->|N].
      * rewrite Nat.min_l by lia. replace (2 * n + 1 - 2 * n)%nat with 1%nat by lia. cbn [firstn fold_left apply]. unfold put.
        replace ((2 * n + 1) / 2)%nat with n by (apply Nat.div_unique with (r := 1%nat); lia).
        replace (Nat.odd (2 * n + 1)) with true by (rewrite Nat.add_1_r, Nat.odd_succ; symmetry; apply Nat.even_spec; exists n; lia).
        rewrite IH'. rewrite Bool.andb_true_r.
        destruct (Z.eqb_spec x (k + Z.of_nat n)) as [->|X].
        -- destruct (Z.ltb_spec (k + Z.of_nat n) (k + Z.of_nat n)); [lia|]. rewrite Bool.andb_false_r. reflexivity.
        -- reflexivity.
      * rewrite Nat.min_r by lia. replace (c - 2 * n)%nat with (S (S (c - 2 * n - 2))) by lia. cbn [firstn]. rewrite firstn_nil. cbn [fold_left apply]. unfold put.
        replace (2 * S n / 2)%nat with (S n) by (apply Nat.div_unique with (r := 0%nat); lia).
        replace (Nat.odd (2 * S n)) with false by (rewrite Nat.odd_mul; reflexivity).
        rewrite Bool.andb_false_r, IH'.
        destruct (Z.eqb_spec x (k + Z.of_nat n)) as [->|X].
        -- destruct (Z.leb_spec k (k + Z.of_nat n)); [|lia]. destruct (Z.ltb_spec (k + Z.of_nat n) (k + Z.of_nat (S n))); [|lia].
           cbn [andb]. do 2 f_equal. lia.
        -- destruct (Z.leb_spec k x); cbn [andb]; [|reflexivity].
           destruct (Z.ltb_spec x (k + Z.of_nat n)), (Z.ltb_spec x (k + Z.of_nat (S n))); try reflexivity; lia.
Qed.
Lemma completed_crashed d (ops : list (op A)) : completed d ops = crashed d ops (length ops).
Proof. unfold crashed, completed. rewrite firstn_all. reflexivity. Qed.
End Ops.

Section XVx.
Context {St Phi E : Type}.
Context (boltzmann : St -> E -> R -> St) (solve : St -> Phi * E) (init : St) (dt : R).
Notation ref := (reference boltzmann solve init dt).
Notation sess := (session boltzmann solve init dt).
Notation reach := (reachable boltzmann solve init dt).

Definition snap (e : event St Phi) : R * St * Phi :=
  match e with Iteration _ _ _ t f p => (t, f, p) | LastIteration _ _ _ t f p => (t, f, p) end.
Definition ev_iter (e : event St Phi) : Z :=
  match e with Iteration _ _ i _ _ _ => Z.of_nat i | LastIteration _ _ i _ _ _ => Z.of_nat i end.
Lemma save_event_eq k nb e : save_event k nb e = save_numbered k nb (ev_iter e) (snap e).
Proof. destruct e; reflexivity. Qed.

(** a run from a state of the reference *)
Lemma ref_add m i : ref (m + i) =
  (INR m * dt + INR i * dt, pc_state boltzmann solve dt (pc_state boltzmann solve dt init m) i,
   fst (solve (pc_state boltzmann solve dt (pc_state boltzmann solve dt init m) i))).
Proof. unfold reference. rewrite pc_state_add, plus_INR. do 2 f_equal. ring. Qed.

Lemma run_events fields0 m nbiter :
  let evs := snd (predcorr St Phi E boltzmann (fun f _ => solve f) fields0 (pc_state boltzmann solve dt init m) (INR m * dt) dt nbiter) in
  length evs = S (Z.to_nat nbiter) /\ map snap evs = map (fun i => ref (m + i)) (seq 0 (S (Z.to_nat nbiter))) /\
  map ev_iter evs = map Z.of_nat (seq 0 (S (Z.to_nat nbiter))).
Proof.
  cbv zeta. rewrite (predcorr_ok boltzmann solve). cbn [snd]. unfold pc_output.
  rewrite app_length, !map_app, !map_map, map_length, seq_length, seq_S, !map_app. cbn [length map snap ev_iter plus].
  split; [lia|]. split; [|reflexivity]. f_equal; [|now rewrite ref_add]. apply map_ext. intros i. now rewrite ref_add.
Qed.

Lemma save_events nb k evs cs :
  map snap evs = map cs (seq 0 (length evs)) -> map ev_iter evs = map Z.of_nat (seq 0 (length evs)) -> (0 < nb)%nat ->
  save_all (save_event k (Z.of_nat nb)) evs =
  Ok (flat_map (fun i => if (Z.rem (Z.of_nat i) (Z.of_nat nb) =? 0)%Z
                     then [Tear (k + Z.quot (Z.of_nat i) (Z.of_nat nb)); Write (k + Z.quot (Z.of_nat i) (Z.of_nat nb)) (cs i)]
                     else []) (seq 0 (length evs))).
Proof.
  intros Hs Hi Hnb. revert Hs Hi. generalize 0%nat. induction evs as [|e evs IH]; intros s; [reflexivity|].
  cbn [length seq map flat_map save_all]. intros [= S1 S2] [= I1 I2].
  rewrite save_event_eq, I1, S1. unfold save_numbered. destruct (Z.eqb_spec (Z.of_nat nb) 0); [lia|].
  rewrite (IH (S s) S2 I2). destruct (Z.rem (Z.of_nat s) (Z.of_nat nb) =? 0)%Z; reflexivity.
Qed.

(** the whole session *)
Lemma session_ok d fields0 k nbiter td m nb :
  start init d k = Ok (INR m * dt, pc_state boltzmann solve dt init m) -> int_quotient td dt = Ok nb -> (0 < nb)%Z ->
  sess d fields0 k nbiter td =
  Ok (write_files (to_int k) (fun j => ref (m + j * Z.to_nat nb)) (S (Z.to_nat nbiter / Z.to_nat nb))).
Proof.
  intros Hs Hnb P. unfold session. rewrite Hs, Hnb. cbn.
  destruct (run_events fields0 m nbiter) as (L & HS & HI).
  destruct (predcorr _ _ _ _ _ _ _ _ _ _) as [f evs]. cbn [snd] in *.
  replace nb with (Z.of_nat (Z.to_nat nb)) at 1 by lia.
  rewrite (save_events (Z.to_nat nb) (to_int k) evs (fun i => ref (m + i))); [|rewrite L; assumption|rewrite L; assumption|lia].
  rewrite L. f_equal. apply (regroup (Z.to_nat nb) (to_int k) (fun i => ref (m + i))). lia.
Qed.

(** ** The invariant *)
Definition genuine (nb : nat) (d : disk (R * St * Phi)) : Prop :=
  forall n c, d n = File c -> (0 <= n)%Z /\ c = ref (Z.to_nat n * nb).

Lemma start_ref nb d k r : genuine nb d -> start init d k = Ok r ->
  (0 <= to_int k)%Z /\ r = (INR (Z.to_nat (to_int k) * nb) * dt, pc_state boltzmann solve dt init (Z.to_nat (to_int k) * nb)).
Proof.
  intros G. unfold start. destruct (Z.eqb_spec k 0) as [->|K].
  - intros [= <-]. rewrite to_int_small by lia. split; [lia|]. cbn [Z.to_nat Nat.mul INR]. f_equal. ring.
  - destruct (d (to_int k)) as [| |[[t f] p]] eqn:D; try discriminate. intros [= <-].
    destruct (G _ _ D) as [P Q]. injection Q as -> -> _. split; [exact P|reflexivity].
Qed.

Lemma genuine_crashed nb d k n c : genuine nb d -> (0 <= k)%Z ->
  genuine nb (crashed d (write_files k (fun j => ref (Z.to_nat k * nb + j * nb)) n) c).
Proof.
  intros G K x v. rewrite crashed_files.
  destruct ((k <=? x)%Z && (x <? k + Z.of_nat (Nat.min c (2 * n) / 2))%Z)%bool eqn:B.
  - intros [= <-]. apply andb_prop in B. destruct B as [B _]. apply Z.leb_le in B. split; [lia|]. f_equal.
    rewrite <- Nat.mul_add_distr_r. f_equal. lia.
  - destruct ((x =? k + Z.of_nat (Nat.min c (2 * n) / 2))%Z && Nat.odd (Nat.min c (2 * n)))%bool; [discriminate|]. apply G.
Qed.

Theorem every_file td nb d n c : int_quotient td dt = Ok nb -> (0 < nb)%Z -> reach (eq td) d -> d n = File c ->
  (0 <= n)%Z /\ c = ref (Z.to_nat (n * nb)).
Proof.
  intros Hnb P Hr. assert (G : genuine (Z.to_nat nb) d).
  { induction Hr as [|d fields0 k nbiter td' ops c' Hr IH Ha Hs]; [intros x v; discriminate|].
    subst td'. unfold session in Hs. destruct (start init d k) as [[t f]| | |] eqn:Hst; try discriminate.
    destruct (start_ref _ _ _ _ IH Hst) as [K Q]. rewrite Q in Hst.
    fold (sess d fields0 k nbiter td) in Hs.
    assert (Hs' : sess d fields0 k nbiter td = Ok ops) by (unfold session; rewrite Hst; rewrite Q in Hs; exact Hs).
    rewrite (session_ok d fields0 k nbiter td _ nb Hst Hnb P) in Hs'. injection Hs' as <-.
    apply genuine_crashed; assumption. }
  intros H. destruct (G _ _ H) as [N ->]. split; [exact N|]. f_equal. rewrite Z2Nat.inj_mul by lia. reflexivity.
Qed.

Lemma can_start_ok td nb d k : int_quotient td dt = Ok nb -> (0 < nb)%Z -> reach (eq td) d -> can_start d k ->
  to_int k = k /\ start init d k = Ok (INR (Z.to_nat (k * nb)) * dt, pc_state boltzmann solve dt init (Z.to_nat (k * nb))).
Proof.
  intros Hnb P Hr [->|[K [c D]]].
  - split; [apply to_int_small; lia|]. unfold start. cbn. do 2 f_equal. ring.
  - split; [apply to_int_small; lia|]. unfold start. destruct (Z.eqb_spec k 0); [lia|]. rewrite to_int_small, D by lia.
    destruct (every_file td nb d k c Hnb P Hr D) as [_ ->]. reflexivity.
Qed.

(** one session, from any reachable disk *)
Theorem crash_state td nb d fields0 k nbiter : int_quotient td dt = Ok nb -> (0 < nb)%Z -> reach (eq td) d -> can_start d k ->
  exists ops, sess d fields0 k nbiter td = Ok ops /\ Z.of_nat (length ops) = (2 * files nbiter nb)%Z /\
    forall c x, let done := (Z.min (Z.of_nat c) (2 * files nbiter nb) / 2)%Z in
      crashed d ops c x =
      if ((k <=? x) && (x <? k + done))%Z then File (ref (Z.to_nat (x * nb)))
      else if ((x =? k + done) && Z.odd (Z.min (Z.of_nat c) (2 * files nbiter nb)))%Z then Torn else d x.
Proof.
  intros Hnb P Hr Hc. destruct (can_start_ok _ _ _ _ Hnb P Hr Hc) as [T S0].
  assert (K : (0 <= k)%Z) by (destruct Hc as [->|[? _]]; lia).
  rewrite (session_ok _ fields0 _ nbiter _ _ _ S0 Hnb P), T. eexists. split; [reflexivity|].
  assert (F : files nbiter nb = Z.of_nat (S (Z.to_nat nbiter / Z.to_nat nb))).
  { unfold files. rewrite Nat2Z.inj_succ, Nat2Z.inj_div, (Z2Nat.id nb) by lia.
    replace (Z.of_nat (Z.to_nat nbiter)) with (Z.max 0 nbiter) by lia. lia. }
  split; [rewrite write_files_length; lia|].
  intros c x. cbv zeta. rewrite crashed_files, F.
  set (n := S (Z.to_nat nbiter / Z.to_nat nb)).
  replace (Z.min (Z.of_nat c) (2 * Z.of_nat n)) with (Z.of_nat (Nat.min c (2 * n))) by lia.
  change 2%Z with (Z.of_nat 2). rewrite <- Nat2Z.inj_div.
  replace (Z.odd (Z.of_nat (Nat.min c (2 * n)))) with (Nat.odd (Nat.min c (2 * n))).
  2:{ generalize (Nat.min c (2 * n)). intros u. destruct (Nat.odd u) eqn:O.
      - symmetry. apply Nat.odd_spec in O. destruct O as [v ->]. apply Z.odd_spec. exists (Z.of_nat v). lia.
      - symmetry. rewrite <- Z.negb_even. apply Bool.negb_false_iff.
        rewrite <- Nat.negb_even in O. apply Bool.negb_false_iff, Nat.even_spec in O. destruct O as [v ->].
        apply Z.even_spec. exists (Z.of_nat v). lia. }
  destruct ((k <=? x)%Z && (x <? k + Z.of_nat (Nat.min c (2 * n) / 2))%Z)%bool eqn:B; [|reflexivity].
  apply andb_prop in B. destruct B as [B _]. apply Z.leb_le in B.
  f_equal. f_equal. apply Nat2Z.inj. rewrite Nat2Z.inj_add, Nat2Z.inj_mul, !Z2Nat.id by nia. ring.
Qed.

Theorem finished_state td nb d fields0 k nbiter : int_quotient td dt = Ok nb -> (0 < nb)%Z -> reach (eq td) d -> can_start d k ->
  exists ops, sess d fields0 k nbiter td = Ok ops /\
    forall x, completed d ops x =
      if ((k <=? x) && (x <? k + files nbiter nb))%Z then File (ref (Z.to_nat (x * nb))) else d x.
Proof.
  intros Hnb P Hr Hc. destruct (crash_state td nb d fields0 k nbiter Hnb P Hr Hc) as (ops & Hs & L & H).
  exists ops. split; [exact Hs|]. intros x. rewrite completed_crashed, H. cbv zeta. rewrite L, Z.min_id.
  rewrite Z.mul_comm, Z.div_mul by lia. rewrite (Z.mul_comm (files nbiter nb)), Z.odd_mul. cbn [Z.odd andb].
  rewrite Bool.andb_false_r. reflexivity.
Qed.

(** restarted = uninterrupted *)
Theorem as_uninterrupted td nb d d' fields0 fields1 k nbiter ops ops' : int_quotient td dt = Ok nb -> (0 < nb)%Z -> (0 <= nbiter)%Z ->
  reach (eq td) d -> can_start d k -> sess d fields0 k nbiter td = Ok ops ->
  reach (eq td) d' -> sess d' fields1 0 (k * nb + nbiter) td = Ok ops' ->
  (forall x, (k <= x)%Z -> (x < k + files nbiter nb)%Z -> completed d ops x = completed d' ops' x) /\
  ((forall x, (0 <= x < k)%Z -> exists c, d x = File c) ->
   forall x, (0 <= x < k + files nbiter nb)%Z -> completed d ops x = completed d' ops' x).
Proof.
  intros Hnb P N Hr Hc Hs Hr' Hs'.
  assert (K : (0 <= k)%Z) by (destruct Hc as [->|[? _]]; lia).
  destruct (finished_state td nb d fields0 k nbiter Hnb P Hr Hc) as (o & E1 & C1). rewrite Hs in E1. injection E1 as <-.
  destruct (finished_state td nb d' fields1 0 (k * nb + nbiter) Hnb P Hr') as (o & E2 & C2); [now left|].
  rewrite Hs' in E2. injection E2 as <-.
  assert (F : files (k * nb + nbiter) nb = (k + files nbiter nb)%Z).
  { unfold files. rewrite !Z.max_r by nia. rewrite (Z.add_comm (k * nb)), Z.div_add by lia. lia. }
  rewrite F in C2.
  split.
  - intros x X1 X2. rewrite C1, C2. destruct (Z.leb_spec k x), (Z.ltb_spec x (k + files nbiter nb)), (Z.leb_spec 0 x); try lia.
    cbn [andb]. rewrite Z.add_0_l. destruct (Z.ltb_spec x (k + files nbiter nb)); [reflexivity|lia].
  - intros All x X. rewrite C1, C2. rewrite Z.add_0_l.
    destruct (Z.ltb_spec x (k + files nbiter nb)); [|lia]. destruct (Z.leb_spec 0 x); [|lia]. cbn [andb].
    destruct (Z.leb_spec k x); cbn [andb]; [reflexivity|]. destruct (All x ltac:(lia)) as [c D]. rewrite D.
    destruct (every_file td nb d x c Hnb P Hr D) as [_ ->]. reflexivity.
Qed.

(** missing checkpoint *)
Theorem missing_file d fields0 k nbiter td : k <> 0%Z -> (- 2147483648 <= k < 2147483648)%Z -> d k = Absent ->
  sess d fields0 k nbiter td = Throw.
Proof.
  intros K B D. unfold session, start. destruct (Z.eqb_spec k 0); [contradiction|]. rewrite to_int_small, D by assumption. reflexivity.
Qed.

(** ** time_diag changed from one session to the next: the content remains genuine *)
Definition some_step (d : disk (R * St * Phi)) : Prop := forall n c, d n = File c -> exists m, c = ref m.
Lemma save_all_in nb k evs ops x : save_all (save_event k nb) evs = Ok ops -> In x ops ->
  match x with Tear _ => True | Write _ c => exists e, In e evs /\ c = snap e end.
Proof.
  revert ops. induction evs as [|e evs IH]; intros ops; cbn [save_all].
  - intros [= <-] [].
  - rewrite save_event_eq. destruct (save_numbered k nb (ev_iter e) (snap e)) as [a| | |] eqn:A; cbn; try discriminate.
    destruct (save_all _ evs) as [b| | |]; cbn; try discriminate. intros [= <-] H. apply in_app_or in H. destruct H as [H|H].
    + unfold save_numbered in A. destruct (nb =? 0)%Z; [discriminate|].
      destruct (Z.rem (ev_iter e) nb =? 0)%Z; injection A as <-; [|destruct H].
      destruct H as [<-|[<-|[]]]; [exact I|]. exists e. split; [now left|reflexivity].
    + specialize (IH b eq_refl H). destruct x; [exact I|]. destruct IH as (e' & I' & ->). exists e'. split; [now right|reflexivity].
Qed.
Lemma fold_some_step d ops : some_step d -> (forall n c, In (Write n c) ops -> exists m, c = ref m) -> some_step (fold_left apply ops d).
Proof.
  revert d. induction ops as [|o ops IH]; intros d Hd H; [exact Hd|]. cbn [fold_left]. apply IH; [|intros n c Hi; apply (H n c); now right].
  intros n c. destruct o as [n'|n' c']; cbn [apply]; unfold put; destruct (n =? n')%Z; try discriminate; try apply Hd.
  intros [= <-]. apply (H n' c'). now left.
Qed.
Theorem any_schedule d n c : reach (fun _ => True) d -> d n = File c -> exists m, c = ref m.
Proof.
  intros Hr. revert n c. induction Hr as [|d fields0 k nbiter td ops c' Hr IH _ Hs]; [discriminate|].
  assert (exists m, start init d k = Ok (INR m * dt, pc_state boltzmann solve dt init m)) as [m Hm].
  { unfold session in Hs. destruct (start init d k) as [[t f]| | |] eqn:Q; try discriminate. unfold start in Q.
    destruct (k =? 0)%Z; [injection Q as <- <-; exists 0%nat; cbn; do 2 f_equal; ring|].
    destruct (d (to_int k)) as [| |[[t' f'] p']] eqn:D; try discriminate. injection Q as <- <-.
    destruct (IH _ _ D) as [m M]. injection M as -> -> _. exists m. reflexivity. }
  unfold session in Hs. rewrite Hm in Hs. cbn in Hs. destruct (int_quotient td dt) as [nb| | |]; cbn in Hs; try discriminate.
  destruct (run_events fields0 m nbiter) as (L & HS & _). destruct (predcorr _ _ _ _ _ _ _ _ _ _) as [f evs]. cbn [snd] in *.
  apply (fold_some_step d (firstn c' ops)); [exact IH|].
  intros n v Hi. assert (Hi' : In (Write n v) ops) by (rewrite <- (firstn_skipn c' ops); apply in_or_app; now left).
  destruct (save_all_in _ _ _ _ _ Hs Hi') as (e & He & ->).
  assert (Q : In (snap e) (map snap evs)) by now apply in_map. rewrite HS in Q. apply in_map_iff in Q. destruct Q as (i & Q & _).
  exists (m + i)%nat. symmetry. exact Q.
Qed.
End XVx.
