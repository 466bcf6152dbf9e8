(** Which files are written, and when. *)
From Coq Require Import Lia Lra ZArith List Reals FinFun.
From Verif Require Import RstSpec RestrictProofs SpeciesProofs RstProofs PcrSpec PcrProofs GciXY.
Import ListNotations.
Open Scope R_scope.

(** ** int(a / b) *)
Lemma trunc_bounds x : 0 <= x -> (0 <= trunc_int x)%Z /\ IZR (trunc_int x) <= x < IZR (trunc_int x) + 1.
Proof.
  intros H. unfold trunc_int. destruct (Rle_dec 0 x); [|contradiction]. destruct (base_Int_part x) as [A B].
  split; [|lra]. assert (IZR (-1) < IZR (Int_part x)) by (change (IZR (-1)) with (-1); lra). apply lt_IZR in H0. lia.
Qed.
Lemma c_int_bounds x : 0 <= x < 2147483648 -> exists n, c_int x = Ok n /\ (0 <= n)%Z /\ IZR n <= x < IZR n + 1.
Proof.
  intros [H L]. destruct (trunc_bounds x H) as [A [B C]]. exists (trunc_int x). split; [|auto].
  unfold c_int. cbv zeta. assert (trunc_int x < 2147483648)%Z by (apply lt_IZR; lra).
  destruct (Z.leb_spec (-2147483648) (trunc_int x)); [|lia]. destruct (Z.leb_spec (trunc_int x) 2147483647); [|lia]. reflexivity.
Qed.
Lemma c_int_value x n : 0 <= x -> c_int x = Ok n -> (0 <= n <= 2147483647)%Z /\ IZR n <= x < IZR n + 1.
Proof.
  intros H. unfold c_int. cbv zeta. destruct (trunc_bounds x H) as [A [B C]].
  destruct (Z.leb_spec (-2147483648) (trunc_int x)); cbn [andb]; [|discriminate].
  destruct (Z.leb_spec (trunc_int x) 2147483647); [|discriminate]. intros [= <-]. split; [lia|lra].
Qed.
Lemma quot_nonneg a b : 0 < b -> 0 <= a -> 0 <= a / b.
Proof. intros. apply Rmult_le_pos; [assumption|]. apply Rlt_le, Rinv_0_lt_compat. assumption. Qed.
Lemma over_b a b n : 0 < b -> IZR n <= a / b < IZR n + 1 -> IZR n * b <= a < (IZR n + 1) * b.
Proof.
  intros B [H1 H2]. assert (E : a = a / b * b) by (field; lra). generalize dependent (a / b). intros q Q1 Q2 ->.
  split; [apply Rmult_le_compat_r; lra|apply Rmult_lt_compat_r; lra].
Qed.
Theorem quotient_total a b : 0 < b -> 0 <= a -> a < 2147483648 * b ->
  exists n, int_quotient a b = Ok n /\ (0 <= n)%Z /\ IZR n * b <= a < (IZR n + 1) * b.
Proof.
  intros B H L. unfold int_quotient. destruct (Req_EM_T b 0) as [?|_]; [lra|].
  destruct (c_int_bounds (a / b)) as (n & N & P & Q).
  { split; [now apply quot_nonneg|]. apply Rmult_lt_reg_r with b; [assumption|]. replace (a / b * b) with a by (field; lra). exact L. }
  exists n. split; [exact N|]. split; [exact P|]. now apply over_b.
Qed.
Theorem quotient_value a b n : 0 < b -> 0 <= a -> int_quotient a b = Ok n ->
  (0 <= n <= 2147483647)%Z /\ IZR n * b <= a < (IZR n + 1) * b.
Proof.
  intros B H. unfold int_quotient. destruct (Req_EM_T b 0) as [?|_]; [lra|]. intros N.
  destruct (c_int_value (a / b) n (quot_nonneg a b B H) N) as [P Q]. split; [exact P|]. now apply over_b.
Qed.
Lemma quotient_exact b (q : Z) n : 0 < b -> int_quotient (IZR q * b) b = Ok n -> n = q.
Proof.
  intros B. unfold int_quotient. destruct (Req_EM_T b 0) as [?|_]; [lra|]. replace (IZR q * b / b) with (IZR q) by (field; lra).
  unfold c_int, trunc_int. cbv zeta.
  destruct (_ && _)%bool; [|discriminate]. intros [= <-].
  destruct (Rle_dec 0 (IZR q)).
  - apply Int_part_unique. lra.
  - rewrite (Int_part_unique _ (- q)%Z); [lia|]. rewrite opp_IZR. lra.
Qed.

(** ** The 1d1v executables *)
Section XVx.
Context {St Phi E : Type}.
Context (boltzmann : St -> E -> R -> St) (solve : St -> Phi * E) (init : St) (dt : R).
Notation ref := (reference boltzmann solve init dt).
Notation sess := (session boltzmann solve init dt).
Notation reach := (reachable boltzmann solve init dt).

Theorem diag_schedule td d fields0 nbiter : 0 < dt <= td -> td < 2147483648 * dt -> reach (eq td) d ->
  exists ops nb, sess d fields0 0 nbiter td = Ok ops /\ (0 < nb)%Z /\ IZR nb * dt <= td < IZR nb * dt + dt /\
    (forall j, (0 <= j < files nbiter nb)%Z -> exists t f phi, completed d ops j = File (t, f, phi) /\
       t = IZR j * (IZR nb * dt) /\ IZR j * (td - dt) <= t <= IZR j * td /\
       f = pc_state boltzmann solve dt init (Z.to_nat (j * nb))) /\
    (forall j, ~ (0 <= j < files nbiter nb)%Z -> completed d ops j = d j).
Proof.
  intros [D0 D1] L Hr. destruct (quotient_total td dt D0 ltac:(lra) L) as (nb & N & P & B1 & B2).
  assert (P' : (0 < nb)%Z). { apply lt_IZR. assert (0 < (IZR nb + 1) * dt - dt) by lra. replace ((IZR nb + 1) * dt - dt) with (IZR nb * dt) in H by ring.
    apply Rmult_lt_reg_r with dt; lra. }
  destruct (finished_state boltzmann solve init dt td nb d fields0 0 nbiter N P' Hr) as (ops & Hs & H); [now left|].
  exists ops, nb. split; [exact Hs|]. split; [exact P'|]. split; [lra|]. split.
  - intros j [J1 J2]. rewrite H. destruct (Z.leb_spec 0 j); [|lia]. destruct (Z.ltb_spec j (0 + files nbiter nb)); [|lia]. cbn [andb].
    unfold reference. do 3 eexists. split; [reflexivity|].
    assert (T : INR (Z.to_nat (j * nb)) * dt = IZR j * (IZR nb * dt)).
    { rewrite INR_IZR_INZ, Z2Nat.id by nia. rewrite mult_IZR. ring. }
    split; [exact T|]. split; [|reflexivity]. rewrite T. assert (0 <= IZR j) by (apply IZR_le; lia).
    split; apply Rmult_le_compat_l; lra.
  - intros j J. rewrite H. destruct (Z.leb_spec 0 j), (Z.ltb_spec j (0 + files nbiter nb)); try reflexivity; lia.
Qed.

(** the last state is in a file exactly when the number of iterations is a multiple of nbstep_diag *)
Theorem last_state td nb fields0 nbiter ops : 0 < dt -> int_quotient td dt = Ok nb -> (0 < nb)%Z -> (0 <= nbiter)%Z ->
  sess (fun _ => Absent) fields0 0 nbiter td = Ok ops ->
  (exists j f phi, completed (fun _ => Absent) ops j = File (IZR nbiter * dt, f, phi)) <-> (nb | nbiter)%Z.
Proof.
  intros D N P Nn Hs. destruct (finished_state boltzmann solve init dt td nb (fun _ => Absent) fields0 0 nbiter N P) as (o & E1 & H).
  { apply Fresh. } { now left. }
  rewrite Hs in E1. injection E1 as <-.
  split.
  - intros (j & f & phi & F). rewrite H in F. destruct (Z.leb_spec 0 j); cbn [andb] in F; [|discriminate].
    destruct (Z.ltb_spec j (0 + files nbiter nb)); [|discriminate]. injection F as F _ _.
    apply Rmult_eq_reg_r in F; [|lra]. rewrite INR_IZR_INZ, Z2Nat.id in F by nia. apply eq_IZR in F. exists j. lia.
  - intros [j J]. assert (0 <= j)%Z by nia. exists j. rewrite H. destruct (Z.leb_spec 0 j); [|lia]. cbn [andb].
    assert (files nbiter nb = j + 1)%Z as -> by (unfold files; rewrite Z.max_r, J, Z.div_mul by lia; reflexivity).
    destruct (Z.ltb_spec j (0 + (j + 1))); [|lia]. unfold reference. do 2 eexists. repeat f_equal. rewrite INR_IZR_INZ, Z2Nat.id by nia. f_equal. lia.
Qed.

(** time_diag below deltat *)
Theorem short_diag td d fields0 k nbiter r : 0 <= td < dt -> start init d k = Ok r -> sess d fields0 k nbiter td = Ub.
Proof.
  intros H Hs. unfold session. rewrite Hs. destruct r as [t f]. cbn.
  assert (Q : int_quotient td dt = Ok 0%Z).
  { destruct (quotient_total td dt) as (n & N & P & B1 & B2); [lra|lra|lra|]. rewrite N. f_equal.
    assert (IZR n < 1). { apply Rmult_lt_reg_r with dt; lra. } apply lt_IZR in H0. lia. }
  rewrite Q. cbn. destruct (predcorr _ _ _ _ _ _ _ _ _ _) as [g evs] eqn:PC.
  destruct evs as [|e evs].
  - exfalso. rewrite (predcorr_ok boltzmann solve) in PC. injection PC as _ C. unfold pc_output in C. symmetry in C. now apply app_cons_not_nil in C.
  - cbn [save_all]. rewrite save_event_eq. reflexivity.
Qed.
End XVx.

(** ** The guiding centre executable *)
Lemma by_iteration_disk {A B} (nb : Z) (key : B -> Z) (val : B -> A) evs ops d : nb <> 0%Z -> NoDup (map key evs) ->
  save_all (fun e => save_by_iteration nb (key e) (val e)) evs = Ok ops ->
  (forall e, In e evs -> Z.rem (key e) nb = 0%Z -> completed d ops (key e) = File (val e)) /\
  (forall x, (forall e, In e evs -> key e = x -> Z.rem x nb <> 0%Z) -> completed d ops x = d x).
Proof.
  intros N. revert ops d. induction evs as [|e evs IH]; intros ops d ND; cbn [save_all].
  - intros [= <-]. split; [intros e []|reflexivity].
  - unfold save_by_iteration at 1. destruct (Z.eqb_spec nb 0); [contradiction|].
    cbn [map] in ND. apply NoDup_cons_iff in ND. destruct ND as [NI ND].
    assert (G : forall a, (let* b := save_all (fun e => save_by_iteration nb (key e) (val e)) evs in Ok (a ++ b)%list) = Ok ops ->
      exists b, save_all (fun e => save_by_iteration nb (key e) (val e)) evs = Ok b /\ ops = (a ++ b)%list).
    { intros a. destruct (save_all _ evs) as [b| | |]; cbn; try discriminate. intros [= <-]. eauto. }
    destruct (Z.eqb_spec (Z.rem (key e) nb) 0) as [R0|R0]; cbn [bind]; intros H; apply G in H; destruct H as (b & H & ->); clear G.
    + unfold completed. rewrite fold_left_app. cbn [fold_left apply].
      set (d' := put (put d (key e) Torn) (key e) (File (val e))). destruct (IH b d' ND H) as [I1 I2]. unfold completed in I1, I2.
      split.
      * intros e' [<-|I'] R'; [|now apply I1].
        rewrite I2. -- unfold d', put. now rewrite Z.eqb_refl.
        -- intros e' I' K. exfalso. apply NI. rewrite <- K. now apply in_map.
      * intros x X. rewrite I2 by (intros e' I'; apply X; now right). unfold d', put.
        destruct (Z.eqb_spec x (key e)) as [->|]; [|reflexivity]. exfalso. apply (X e (or_introl eq_refl) eq_refl). exact R0.
    + cbn [app]. destruct (IH b d ND H) as [I1 I2]. split.
      * intros e' [<-|I'] R'; [contradiction|now apply I1].
      * intros x X. apply I2. intros e' I'. apply X. now right.
Qed.

Theorem guiding_centre_files o f dt T nb d ops : keeps_rhs o -> 0 < dt -> 0 <= T -> (0 < nb)%Z ->
  guiding_centre o f dt T nb = Ok ops ->
  exists n fs, IZR n * dt <= T < (IZR n + 1) * dt /\ (0 <= n)%Z /\ trajectory (xy_step o dt) (count n) f fs /\
    (forall i, (0 <= i <= n)%Z -> (nb | i)%Z -> exists e, completed d ops i = File e /\
       is_xy_event e i (IZR i * dt) (fs (Z.to_nat i)) (electric o (fs (Z.to_nat i)))) /\
    (forall i, ~ ((0 <= i <= n)%Z /\ (nb | i)%Z) -> completed d ops i = d i).
Proof.
  intros Hk D H N. unfold guiding_centre. destruct (int_quotient T dt) as [n| | |] eqn:Q; cbn [bind]; try discriminate.
  destruct (quotient_value T dt n D H Q) as [P B].
  destruct (x_poisson o f) as [[[phi E] g]| | |] eqn:X; cbn [bind]; try discriminate.
  assert (g = f) by (eapply Hk; exact X). subst g.
  destruct (predcorr_xy o f dt n) as [[f' evs]| | |] eqn:R; cbn [bind]; try discriminate.
  destruct (xy_sound o dt f n f' evs Hk R) as (fs & T1 & _ & L & Ev).
  set (e0 := {| xe_iter := 0; xe_time := IZR 0 * dt; xe_f := f; xe_phi := phi; xe_E := E |}).
  intros Hs. exists n, fs. split; [exact B|]. split; [lia|]. split; [exact T1|].
  assert (NE : forall i e, nth_error (e0 :: evs) i = Some e -> is_xy_event e (Z.of_nat i) (IZR (Z.of_nat i) * dt) (fs i) (electric o (fs i))).
  { intros [|i] e; cbn [nth_error].
    - intros [= <-]. unfold is_xy_event. cbn. destruct T1 as [-> _]. repeat split; try reflexivity. exists f. exact X.
    - intros He. assert (i < count n)%nat by (rewrite <- L; apply nth_error_Some; congruence).
      destruct (Ev i H0) as (e' & He' & V). rewrite He in He'. injection He' as <-. rewrite <- INR_IZR_INZ. exact V. }
  assert (KM : map xe_iter (e0 :: evs) = map Z.of_nat (seq 0 (S (count n)))).
  { apply nth_ext with (d := 0%Z) (d' := 0%Z).
    - rewrite !map_length, seq_length. cbn [length]. lia.
    - intros i Hi. rewrite map_length in Hi. destruct (nth_error (e0 :: evs) i) as [e|] eqn:He.
      + rewrite (nth_indep (map Z.of_nat (seq 0 (S (count n)))) 0%Z (Z.of_nat 0)) by (rewrite map_length, seq_length; cbn [length] in Hi; lia).
        rewrite (map_nth Z.of_nat), seq_nth by (cbn [length] in Hi; lia).
        destruct (NE i e He) as [V0 _]. rewrite Nat.add_0_l, <- V0.
        apply nth_error_nth. rewrite nth_error_map, He. reflexivity.
      + apply nth_error_None in He. lia. }
  assert (ND : NoDup (map xe_iter (e0 :: evs))).
  { rewrite KM. apply Injective_map_NoDup; [intros a b; lia|apply seq_NoDup]. }
  destruct (by_iteration_disk nb xe_iter (fun e => e) (e0 :: evs) ops d ltac:(lia) ND Hs) as [I1 I2].
  split.
  - intros i Hi [q Hq]. destruct (nth_error (e0 :: evs) (Z.to_nat i)) as [e|] eqn:He.
    2:{ apply nth_error_None in He. cbn [length] in He. unfold count in L. lia. }
    pose proof (NE _ _ He) as V. rewrite Z2Nat.id in V by lia. exists e. split; [|exact V].
    assert (K : xe_iter e = i) by apply V. rewrite <- K. apply I1; [eapply nth_error_In; exact He|]. rewrite K, Hq. apply Z.rem_mul. lia.
  - intros i Hi. apply I2. intros e He K R0. apply Hi.
    assert (Q1 : In (xe_iter e) (map xe_iter (e0 :: evs))) by now apply in_map.
    rewrite KM in Q1. apply in_map_iff in Q1. destruct Q1 as (u & U1 & U2). apply in_seq in U2. unfold count in U2. subst i.
    split; [lia|]. apply Z.rem_divide; [lia|exact R0].
Qed.

(** ** The collision executable *)
Section Collisions.
Context {St : Type} (collide : St -> R -> St).
Lemma coll_loop_ok dt nb n : (0 < nb)%nat -> forall s f, coll_loop collide dt (Z.of_nat nb) n (Z.of_nat s) f =
  Ok (collided collide dt f n,
      flat_map (fun i => if (Z.rem (Z.of_nat i) (Z.of_nat nb) =? 0)%Z
                     then [Tear (0 + Z.quot (Z.of_nat i) (Z.of_nat nb)); Write (0 + Z.quot (Z.of_nat i) (Z.of_nat nb))
                             (IZR (Z.of_nat i) * dt, collided collide dt f (i - s))]
                     else []) (seq s n)).
Proof.
  intros Hnb. induction n as [|n IH]; intros s f; [reflexivity|].
  cbn [coll_loop seq flat_map]. unfold save_numbered at 1. destruct (Z.eqb_spec (Z.of_nat nb) 0); [lia|].
  replace (Z.of_nat s + 1)%Z with (Z.of_nat (S s)) by lia. rewrite IH.
  assert (C : collided collide dt (collide f dt) n = collided collide dt f (S n)).
  { unfold collided. clear. induction n as [|n IH]; [reflexivity|]. cbn [Nat.iter nat_rect] in *. f_equal. exact IH. }
  rewrite C. rewrite Nat.sub_diag. change (collided collide dt f 0) with f. rewrite Rplus_0_l.
  assert (G : forall l, (forall i, In i l -> (s < i)%nat) ->
    flat_map (fun i => if (Z.rem (Z.of_nat i) (Z.of_nat nb) =? 0)%Z
                     then [Tear (0 + Z.quot (Z.of_nat i) (Z.of_nat nb)); Write (0 + Z.quot (Z.of_nat i) (Z.of_nat nb))
                             (IZR (Z.of_nat i) * dt, collided collide dt (collide f dt) (i - S s))] else []) l =
    flat_map (fun i => if (Z.rem (Z.of_nat i) (Z.of_nat nb) =? 0)%Z
                     then [Tear (0 + Z.quot (Z.of_nat i) (Z.of_nat nb)); Write (0 + Z.quot (Z.of_nat i) (Z.of_nat nb))
                             (IZR (Z.of_nat i) * dt, collided collide dt f (i - s))] else []) l).
  { intros l. induction l as [|i l IHl]; intros Hl; [reflexivity|]. cbn [flat_map]. f_equal; [|apply IHl; intros; apply Hl; now right].
    destruct (_ =? 0)%Z; [|reflexivity]. do 4 f_equal.
    replace (i - s)%nat with (S (i - S s)) by (specialize (Hl i (or_introl eq_refl)); lia).
    unfold collided. clear. generalize (i - S s)%nat. intros m. induction m as [|m IH]; [reflexivity|]. cbn [Nat.iter nat_rect] in *. f_equal. exact IH. }
  rewrite G by (intros i Hi; apply in_seq in Hi; lia).
  destruct (Z.rem (Z.of_nat s) (Z.of_nat nb) =? 0)%Z; reflexivity.
Qed.

Theorem collision_files f dt nbiter td nb d : dt <= 1 / 100 -> coll_nbstep dt nbiter td = Ok nb -> (0 < nb)%Z -> (0 <= nbiter < int_max)%Z ->
  exists g ops, coll_main collide f dt nbiter td = Ok (g, ops) /\ g = collided collide dt f (Z.to_nat nbiter + 1) /\
    forall j, completed d ops j =
      if ((0 <=? j) && (j <? files nbiter nb))%Z
      then File (IZR (j * nb) * dt, collided collide dt f (Z.to_nat (j * nb))) else d j.
Proof.
  intros D N P B. unfold coll_main. destruct (Rlt_dec (1 / 100) dt); [lra|]. rewrite N. cbn [bind].
  destruct (Z.ltb_spec nbiter int_max); [|lia].
  replace (Z.to_nat (nbiter + 1)) with (S (Z.to_nat nbiter)) by lia.
  pose proof (coll_loop_ok dt (Z.to_nat nb) (S (Z.to_nat nbiter)) ltac:(lia) 0 f) as CL. change (Z.of_nat 0) with 0%Z in CL.
  rewrite Z2Nat.id in CL at 1 by lia. rewrite CL. clear CL.
  do 2 eexists. split; [reflexivity|]. split; [f_equal; lia|]. intros j.
  rewrite (regroup (Z.to_nat nb) 0 (fun i => (IZR (Z.of_nat i) * dt, collided collide dt f (i - 0)))) by lia.
  rewrite completed_crashed, crashed_files, write_files_length, Nat.min_id.
  rewrite Nat.mul_comm, Nat.div_mul by lia.
  replace (Nat.odd (S (Z.to_nat nbiter / Z.to_nat nb) * 2)) with false by (rewrite Nat.odd_mul; change (Nat.odd 2) with false; now rewrite Bool.andb_false_r).
  rewrite Bool.andb_false_r, Z.add_0_l.
  replace (Z.of_nat (S (Z.to_nat nbiter / Z.to_nat nb))) with (files nbiter nb).
  2:{ unfold files. rewrite Nat2Z.inj_succ, Nat2Z.inj_div, !Z2Nat.id by lia. rewrite Z.max_r by lia. lia. }
  destruct ((0 <=? j)%Z && (j <? files nbiter nb)%Z)%bool eqn:Bb; [|reflexivity].
  apply andb_prop in Bb. destruct Bb as [B1 _]. apply Z.leb_le in B1. rewrite Z.sub_0_r.
  replace (Z.to_nat j * Z.to_nat nb)%nat with (Z.to_nat (j * nb)) by (rewrite Z2Nat.inj_mul by lia; reflexivity).
  rewrite Z2Nat.id, Nat.sub_0_r by nia. reflexivity.
Qed.
Theorem collision_step f dt nbiter td : 1 / 100 < dt -> coll_main collide f dt nbiter td = Throw.
Proof. intros H. unfold coll_main. destruct (Rlt_dec (1 / 100) dt); [reflexivity|contradiction]. Qed.
End Collisions.
(** with deltat = 0 the initial and the last iteration are the saved ones *)
Theorem collision_steady nbiter td : td <> 0 -> (0 < nbiter <= 2147483647)%Z -> coll_nbstep 0 nbiter td = Ok nbiter.
Proof.
  intros T N. unfold coll_nbstep. destruct (Req_EM_T 0 0); [|contradiction]. destruct (Z.eqb_spec nbiter 0); [lia|].
  assert (P : 0 < IZR nbiter) by (apply IZR_lt; lia).
  unfold int_quotient. destruct (Req_EM_T (td / IZR nbiter) 0) as [Q|Q].
  - exfalso. apply T. apply (f_equal (fun x => x * IZR nbiter)) in Q. field_simplify in Q; lra.
  - replace (td / (td / IZR nbiter)) with (IZR nbiter) by (field; split; lra).
    unfold c_int, trunc_int. destruct (Rle_dec 0 (IZR nbiter)); [|lra]. rewrite (Int_part_unique _ nbiter) by lra.
    destruct (Z.leb_spec (-2147483648) nbiter), (Z.leb_spec nbiter 2147483647); try lia. reflexivity.
Qed.
