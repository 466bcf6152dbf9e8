(** Proofs about the spline builder on derivative fields (C111). *)
From Coq Require Import ZifyBool.
From Verif Require Import DerivMain DerivRanges DfbSpec.
Open Scope Z_scope.

Lemma inside_iff r i : inside r i = true <-> in_range r i.
Proof. unfold inside, in_range. lia. Qed.

Lemma in_indices r i : In i (indices r) <-> in_range r i.
Proof.
  unfold indices, in_range. rewrite in_map_iff. split.
  - intros (k & <- & Hk%in_seq). lia.
  - intros H. exists (Z.to_nat (i - r_front r)). split; [lia|]. apply in_seq. lia.
Qed.

Lemma in_indices_2d r1 r2 i j : In (i, j) (indices_2d r1 r2) <-> in_range r1 i /\ in_range r2 j.
Proof.
  unfold indices_2d. rewrite in_flat_map. split.
  - intros (i' & Hi & Hj). apply in_map_iff in Hj. destruct Hj as (j' & E & Hj). injection E as -> ->.
    split; now apply in_indices.
  - intros [Hi Hj]. exists i. split; [now apply in_indices|]. apply in_map_iff. exists j.
    split; auto. now apply in_indices.
Qed.

Lemma run_ok {V} sp (body : Z -> Z -> res V) (g : Z -> Z -> V) : forall l a,
  (forall i j, In (i, j) l -> body i j = Ok (g i j) /\ in_range (a_1 a) i /\ in_range (a_2 a) j) ->
  exists a', run_kernel sp sp l body a = Ok a' /\ a_1 a' = a_1 a /\ a_2 a' = a_2 a /\
    forall i j, (In (i, j) l -> a_val a' i j = Some (g i j)) /\
                (~ In (i, j) l -> a_val a' i j = a_val a i j).
Proof.
  induction l as [|[i j] l IH]; intros a H; cbn [run_kernel].
  - exists a. repeat split; auto. intros [].
  - destruct (space_dec sp sp); [|tauto]. destruct (H i j (or_introl eq_refl)) as (Eb & H1 & H2). rewrite Eb. cbn [bind]. unfold put.
    rewrite (proj2 (inside_iff _ _) H1), (proj2 (inside_iff _ _) H2). cbn [andb bind].
    edestruct IH as (a' & E & E1 & E2 & Hv); [|exists a'; split; [exact E|]].
    + cbn [a_1 a_2]. intros i' j' Hi. apply H. now right.
    + cbn [a_1 a_2] in *. repeat (split; auto).
      * intros Hin. destruct (in_dec (fun x y : Z * Z => ltac:(decide equality; apply Z.eq_dec) : {x = y} + {x <> y}) (i0, j0) l) as [Hl|Hl].
        -- now apply Hv.
        -- destruct Hin as [E0|Hin]; [|tauto]. injection E0 as <- <-.
           destruct (Hv i j) as [_ Hn]. rewrite Hn by auto. cbn [a_val]. now rewrite !Z.eqb_refl.
      * intros Hin. destruct (Hv i0 j0) as [_ Hn]. rewrite Hn by (intros ?; apply Hin; now right).
        cbn [a_val]. destruct ((i0 =? i) && (j0 =? j)) eqn:E0; auto. exfalso. apply Hin. left. f_equal; lia.
Qed.

Lemma run_inv {V} sp mem (body : Z -> Z -> res V) : forall l a a', run_kernel sp mem l body a = Ok a' ->
  forall i j, In (i, j) l -> sp = mem /\ exists v, body i j = Ok v.
Proof.
  induction l as [|[i j] l IH]; intros a a' E i' j' Hin; [destruct Hin|]. cbn [run_kernel] in E.
  destruct (space_dec sp mem) as [->|]; [|discriminate].
  destruct (body i j) as [v| | |] eqn:Eb; try discriminate. cbn [bind] in E.
  destruct (put a i j v) as [a1| | |] eqn:Ep; try discriminate. cbn [bind] in E.
  destruct Hin as [E0|Hin]; [injection E0 as <- <-; eauto|]. eapply IH; eauto.
Qed.

Lemma run_fails {V} sp mem (body : Z -> Z -> res V) :
  (forall i j, body i j <> Throw) -> forall l a, run_kernel sp mem l body a <> Throw.
Proof.
  intros Hb. induction l as [|[i j] l IH]; intros a E; [discriminate|]. cbn [run_kernel] in E.
  destruct (space_dec sp mem); [|discriminate]. specialize (Hb i j). destruct (body i j) as [v| | |]; try discriminate; [|tauto].
  cbn [bind] in E. unfold put in E. destruct (_ && _); [|discriminate]. cbn [bind] in E. now apply IH in E.
Qed.

Section transfer.
  Context {V : Type}.
  Variables (f : shape) (fields : list view) (m : store V) (p : nat).
  Hypothesis Hf : wf_shape f.
  Hypothesis Hd : dims f = df_dims.
  Hypothesis HF : fields_at f p fields.

  Definition full (k i l j : Z) (t : tag) : Z :=
    match t with Der 1 => k | Phys 1 => i | Der 2 => l | Phys 2 => j | _ => 0 end.

  Lemma accepted_full k i l j : accepted f (full k i l j) <->
    0 <= k <= Z.of_nat (nderivs f) /\ 0 <= l <= Z.of_nat (nderivs f) /\
    ((k <> 0 /\ in_slice (dslice f 1) i) \/ (k = 0 /\ in_range (phys f 1) i)) /\
    ((l <> 0 /\ in_slice (dslice f 2) j) \/ (l = 0 /\ in_range (phys f 2) j)).
  Proof.
    unfold accepted. rewrite Hd. split.
    - intros [H1 H2].
      pose proof (H1 1%nat (or_introl eq_refl)) as K1. pose proof (H1 2%nat ltac:(cbn; auto)) as K2.
      pose proof (H2 1%nat ltac:(cbn; auto)) as P1. pose proof (H2 2%nat ltac:(cbn; auto)) as P2.
      cbn [full] in *. split; auto. split; auto. split.
      + destruct P1 as [(_ & ? & ?)|(Hn & ?)]; auto. right. split; auto.
        destruct (Z.eq_dec k 0); auto. exfalso. apply Hn. split; auto. cbn; auto.
      + destruct P2 as [(_ & ? & ?)|(Hn & ?)]; auto. right. split; auto.
        destruct (Z.eq_dec l 0); auto. exfalso. apply Hn. split; auto. cbn; auto.
    - intros (K & L & P1 & P2). split.
      + intros d [E|[E|[E|[E|[]]]]]; try discriminate; injection E as <-; cbn [full]; auto.
      + intros d [E|[E|[E|[E|[]]]]]; try discriminate; injection E as <-; cbn [full].
        * destruct P1 as [[? ?]|[-> ?]].
          -- left. split; [cbn; tauto|]. split; auto.
          -- right. split; auto. intros [_ ?]. tauto.
        * destruct P2 as [[? ?]|[-> ?]].
          -- left. split; [cbn; tauto|]. split; auto.
          -- right. split; auto. intros [_ ?]. tauto.
  Qed.

  Lemma value_ok (D : table V) elem k i l j : stores f fields m D -> completes f elem (full k i l j) ->
    accepted f (full k i l j) -> value f fields m elem = Ok (D k i l j).
  Proof.
    intros HS Hc Ha. unfold value.
    destruct (call_accepted f Hf p fields HF elem _ Hc Ha) as (ks & Hp & Hb & E). rewrite E. cbn [bind].
    destruct (call_accepted f Hf p fields HF (fun t => Some (full k i l j t)) (full k i l j) (fun t _ => or_introl eq_refl) Ha)
      as (ks' & Hp' & Hb' & E').
    assert (EE : ks = ks').
    { clear -Hp Hp'. unfold posns in *. revert ks' Hp'. induction Hp; intros ks' Hp'; inversion Hp'; subst; auto.
      f_equal; [congruence|auto]. }
    rewrite <- EE in E'. exact (f_equal Ok (HS _ _ Ha E')).
  Qed.

  Lemma value_inv elem k i l j v : completes f elem (full k i l j) ->
    value f fields m elem = Ok v -> accepted f (full k i l j).
  Proof.
    unfold value. intros Hc E. destruct (call f fields elem) as [c| | |] eqn:Ec; try discriminate.
    exact (call_ok_inv f Hf p fields HF elem _ c Hc Ec).
  Qed.

  Lemma value_no_throw elem k i l j : completes f elem (full k i l j) -> value f fields m elem <> Throw.
  Proof.
    unfold value. intros Hc E. destruct (call f fields elem) as [[b o]| | |] eqn:Ec; try discriminate.
    destruct (call_eq f Hf p fields HF elem _ Hc) as [(ks & _ & E')|[E' _]]; rewrite Ec in E'; [|discriminate].
    clear -E'. symmetry in E'.
    assert (Hns : forall ds ss o, submdspan_dims o ds ss <> Throw).
    { induction ds as [|[e st] ds IH]; intros [|s ss] o; cbn; try discriminate.
      destruct s as [|q|a b].
      - specialize (IH ss o). destruct (submdspan_dims o ds ss) as [[? ?]| | |]; cbn; congruence.
      - destruct (_ && _); [apply IH|discriminate].
      - destruct (_ && _); [|discriminate]. specialize (IH ss (o + a * Z.of_nat st)).
        destruct (submdspan_dims _ ds ss) as [[? ?]| | |]; cbn; congruence. }
    destruct (submdspan_dims _ _ _) as [[? ?]| | |] eqn:Es; try discriminate. now apply Hns in Es.
  Qed.

  Lemma completes_pt elem k i l j :
    (elem (Der 1) = Some k \/ (elem (Der 1) = None /\ k = 0)) -> elem (Phys 1) = Some i ->
    (elem (Der 2) = Some l \/ (elem (Der 2) = None /\ l = 0)) -> elem (Phys 2) = Some j ->
    completes f elem (full k i l j).
  Proof.
    intros H1 H2 H3 H4 t Ht. rewrite Hd in Ht. destruct Ht as [<-|[<-|[<-|[<-|[]]]]]; cbn [full]; auto.
    - destruct H1 as [?|[? ->]]; auto. right. split; auto. exists 1%nat. auto.
    - destruct H3 as [?|[? ->]]; auto. right. split; auto. exists 2%nat. auto.
  Qed.

  Lemma ends : nonempty f -> in_range (phys f 1) (lower (phys f 1)) /\ in_range (phys f 1) (upper (phys f 1)) /\
    in_range (phys f 2) (lower (phys f 2)) /\ in_range (phys f 2) (upper (phys f 2)).
  Proof. unfold nonempty, in_range, lower, upper. lia. Qed.

  (** the four kinds of kernels *)
  Lemma fill sp (D : table V) r1 r2 (g : Z -> Z -> V) (body : Z -> Z -> res V) :
    (forall i j, in_range r1 i -> in_range r2 j -> body i j = Ok (g i j)) ->
    exists a, run_kernel sp sp (indices_2d r1 r2) body (alloc r1 r2) = Ok a /\ tabulates a r1 r2 g.
  Proof.
    intros H. destruct (run_ok sp body g (indices_2d r1 r2) (alloc r1 r2)) as (a & E & E1 & E2 & Hv).
    - intros i j Hin. apply in_indices_2d in Hin. destruct Hin. cbn [alloc a_1 a_2]. auto.
    - exists a. split; auto. repeat split; auto. intros i j Hi Hj. apply Hv. now apply in_indices_2d.
  Qed.

  Lemma orders_in n k : in_range (orders n) k <-> 1 <= k <= Z.of_nat n.
  Proof. unfold in_range, orders. cbn [r_front r_ext]. lia. Qed.

  Lemma empty_kernel sp mem (body : Z -> Z -> res V) n1 n2 : (n1 = 0 \/ n2 = 0)%nat ->
    forall a, run_kernel sp mem (indices_2d (Range 1 n1) (Range 1 n2)) body a = Ok a.
  Proof.
    intros H a. replace (indices_2d (Range 1 n1) (Range 1 n2)) with (@nil (Z * Z)); auto.
    unfold indices_2d, indices. cbn [r_front r_ext]. destruct H as [-> | ->]; auto.
    cbn [seq map]. induction (seq 0 n1) as [|x xs IH]; auto.
  Qed.

  Lemma fill_corner exec dflt (D : table V) n1 n2 c1 c2 : stores f fields m D ->
    end_known f 1 n1 c1 -> end_known f 2 n2 c2 -> (exec = dflt \/ (n1 = 0 \/ n2 = 0)%nat) ->
    exists a, fill_in_cross_deriv f fields m exec dflt (alloc (orders n1) (orders n2)) c1 c2 = Ok a /\
      tabulates a (orders n1) (orders n2) (fun k l => D k c1 l c2).
  Proof.
    intros HS K1 K2 Hsp. unfold fill_in_cross_deriv. cbn [alloc a_1 a_2].
    destruct (Nat.eq_dec n1 0) as [E1|E1]; [|destruct (Nat.eq_dec n2 0) as [E2|E2]].
    1, 2: eexists; split; [apply empty_kernel; auto|]; repeat split; auto; intros k l Hk Hl; exfalso;
      apply orders_in in Hk; apply orders_in in Hl; lia.
    destruct Hsp as [<- |[?|?]]; try lia. apply (fill exec D). intros k l Hk%orders_in Hl%orders_in.
    destruct K1 as [?|[K1 S1]]; [lia|]. destruct K2 as [?|[K2 S2]]; [lia|].
    apply value_ok; auto.
    - apply completes_pt; auto.
    - apply accepted_full. repeat split; try lia; left; split; auto; lia.
  Qed.

  Lemma unpack_ok exec dflt (D : table V) nb : nonempty f -> stores f fields m D -> provides f nb ->
    (exec = dflt \/ ~ needs_mixed nb) ->
    exists g, unpack f fields m exec dflt nb = Ok g /\ documented D (phys f 1) (phys f 2) nb g.
  Proof.
    intros Hn HS (P1 & P2 & P3 & P4) Hsp. pose proof (ends Hn) as (I1 & I2 & I3 & I4).
    unfold unpack. cbv zeta.
    change (Range 1 (nbv1_min nb)) with (orders (nbv1_min nb)). change (Range 1 (nbv1_max nb)) with (orders (nbv1_max nb)).
    change (Range 1 (nbv2_min nb)) with (orders (nbv2_min nb)). change (Range 1 (nbv2_max nb)) with (orders (nbv2_max nb)).
    change (r_front (phys f 1)) with (lower (phys f 1)). change (r_front (phys f 2)) with (lower (phys f 2)).
    change (r_back (phys f 1)) with (upper (phys f 1)). change (r_back (phys f 2)) with (upper (phys f 2)).
    destruct (fill exec D (phys f 1) (phys f 2) (fun i j => D 0 i 0 j)
      (fun i j => value f fields m (fun t => match t with Phys 1 => Some i | Phys 2 => Some j | _ => None end)))
      as (a0 & E0 & T0).
    { intros i j Hi Hj. apply value_ok; auto; [apply completes_pt; auto|]. apply accepted_full.
      repeat split; try lia; auto. }
    unfold fill_in_function. rewrite E0. cbn [bind].
    assert (F1 : forall n c, end_known f 1 n c -> exists a,
      fill_in_deriv1 f fields m exec (alloc (orders n) (phys f 2)) c = Ok a /\
      tabulates a (orders n) (phys f 2) (fun k j => D k c 0 j)).
    { intros n c HK. unfold fill_in_deriv1. cbn [alloc a_1 a_2]. apply (fill exec D).
      intros k j Hk%orders_in Hj. destruct HK as [?|[HK HSl]]; [lia|]. apply value_ok; auto; [apply completes_pt; auto|].
      apply accepted_full. repeat split; try lia; auto. left. split; auto; lia. }
    assert (F2 : forall n c, end_known f 2 n c -> exists a,
      fill_in_deriv2 f fields m exec (alloc (phys f 1) (orders n)) c = Ok a /\
      tabulates a (phys f 1) (orders n) (fun i k => D 0 i k c)).
    { intros n c HK. unfold fill_in_deriv2. cbn [alloc a_1 a_2]. apply (fill exec D).
      intros i k Hi Hk%orders_in. destruct HK as [?|[HK HSl]]; [lia|]. apply value_ok; auto; [apply completes_pt; auto|].
      apply accepted_full. repeat split; try lia; auto. left. split; auto; lia. }
    destruct (F1 _ _ P1) as (a1 & E1 & T1). rewrite E1. cbn [bind].
    destruct (F1 _ _ P2) as (a2 & E2 & T2). rewrite E2. cbn [bind].
    destruct (F2 _ _ P3) as (a3 & E3 & T3). rewrite E3. cbn [bind].
    destruct (F2 _ _ P4) as (a4 & E4 & T4). rewrite E4. cbn [bind].
    assert (Hcc : forall n1 n2, (n1 = nbv1_min nb \/ n1 = nbv1_max nb) -> (n2 = nbv2_min nb \/ n2 = nbv2_max nb) ->
      exec = dflt \/ (n1 = 0 \/ n2 = 0)%nat).
    { intros n1 n2 H1 H2. destruct Hsp as [->|Hsp]; auto. right. unfold needs_mixed in Hsp. lia. }
    destruct (fill_corner exec dflt D _ _ _ _ HS P1 P3) as (a5 & E5 & T5); [auto|]. rewrite E5. cbn [bind].
    destruct (fill_corner exec dflt D _ _ _ _ HS P2 P3) as (a6 & E6 & T6); [auto|]. rewrite E6. cbn [bind].
    destruct (fill_corner exec dflt D _ _ _ _ HS P1 P4) as (a7 & E7 & T7); [auto|]. rewrite E7. cbn [bind].
    destruct (fill_corner exec dflt D _ _ _ _ HS P2 P4) as (a8 & E8 & T8); [auto|]. rewrite E8. cbn [bind].
    eexists. split; [reflexivity|]. constructor; cbn; auto.
  Qed.

  Lemma unpack_inv exec dflt nb g : nonempty f -> unpack f fields m exec dflt nb = Ok g ->
    provides f nb /\ (exec = dflt \/ ~ needs_mixed nb).
  Proof.
    intros Hn E. pose proof (ends Hn) as (I1 & I2 & I3 & I4). unfold unpack in E. cbv zeta in E.
    change (r_front (phys f 1)) with (lower (phys f 1)) in E. change (r_front (phys f 2)) with (lower (phys f 2)) in E.
    change (r_back (phys f 1)) with (upper (phys f 1)) in E. change (r_back (phys f 2)) with (upper (phys f 2)) in E.
    destruct (fill_in_function _ _ _ _ _) as [a0| | |] eqn:E0; try discriminate. cbn [bind] in E.
    destruct (fill_in_deriv1 _ _ _ _ _ _) as [a1| | |] eqn:E1; try discriminate. cbn [bind] in E.
    destruct (fill_in_deriv1 _ _ _ _ (alloc (Range 1 (nbv1_max nb)) _) _) as [a2| | |] eqn:E2; try discriminate. cbn [bind] in E.
    destruct (fill_in_deriv2 _ _ _ _ _ _) as [a3| | |] eqn:E3; try discriminate. cbn [bind] in E.
    destruct (fill_in_deriv2 _ _ _ _ (alloc _ (Range 1 (nbv2_max nb))) _) as [a4| | |] eqn:E4; try discriminate. cbn [bind] in E.
    destruct (fill_in_cross_deriv _ _ _ _ _ (alloc (Range 1 (nbv1_min nb)) (Range 1 (nbv2_min nb))) _ _) as [a5| | |] eqn:E5; try discriminate. cbn [bind] in E.
    destruct (fill_in_cross_deriv _ _ _ _ _ (alloc (Range 1 (nbv1_max nb)) (Range 1 (nbv2_min nb))) _ _) as [a6| | |] eqn:E6; try discriminate. cbn [bind] in E.
    destruct (fill_in_cross_deriv _ _ _ _ _ (alloc (Range 1 (nbv1_min nb)) (Range 1 (nbv2_max nb))) _ _) as [a7| | |] eqn:E7; try discriminate. cbn [bind] in E.
    destruct (fill_in_cross_deriv _ _ _ _ _ (alloc (Range 1 (nbv1_max nb)) (Range 1 (nbv2_max nb))) _ _) as [a8| | |] eqn:E8; try discriminate.
    clear E.
    assert (K1 : forall n c a, fill_in_deriv1 f fields m exec (alloc (Range 1 n) (phys f 2)) c = Ok a -> end_known f 1 n c).
    { intros n c a Ea. destruct (Nat.eq_dec n 0) as [?|Hn0]; [now left|]. right. unfold fill_in_deriv1 in Ea. cbn [alloc a_1 a_2] in Ea.
      destruct (run_inv _ _ _ _ _ _ Ea (Z.of_nat n) (lower (phys f 2))) as (_ & v & Ev).
      { apply in_indices_2d. split; auto. unfold in_range. cbn [r_front r_ext]. lia. }
      apply (value_inv _ (Z.of_nat n) c 0 (lower (phys f 2))) in Ev; [|apply completes_pt; auto].
      apply accepted_full in Ev. destruct Ev as (? & _ & [[_ ?]|[? _]] & _); [|lia]. split; auto; lia. }
    assert (K2 : forall n c a, fill_in_deriv2 f fields m exec (alloc (phys f 1) (Range 1 n)) c = Ok a -> end_known f 2 n c).
    { intros n c a Ea. destruct (Nat.eq_dec n 0) as [?|Hn0]; [now left|]. right. unfold fill_in_deriv2 in Ea. cbn [alloc a_1 a_2] in Ea.
      destruct (run_inv _ _ _ _ _ _ Ea (lower (phys f 1)) (Z.of_nat n)) as (_ & v & Ev).
      { apply in_indices_2d. split; auto. unfold in_range. cbn [r_front r_ext]. lia. }
      apply (value_inv _ 0 (lower (phys f 1)) (Z.of_nat n) c) in Ev; [|apply completes_pt; auto].
      apply accepted_full in Ev. destruct Ev as (_ & ? & _ & [[_ ?]|[? _]]); [|lia]. split; auto; lia. }
    assert (K3 : forall n1 n2 c1 c2 a, fill_in_cross_deriv f fields m exec dflt (alloc (Range 1 n1) (Range 1 n2)) c1 c2 = Ok a ->
      (0 < n1)%nat -> (0 < n2)%nat -> exec = dflt).
    { intros n1 n2 c1 c2 a Ea H1 H2. unfold fill_in_cross_deriv in Ea. cbn [alloc a_1 a_2] in Ea.
      destruct (run_inv _ _ _ _ _ _ Ea 1 1) as (EE & _); [|now symmetry].
      apply in_indices_2d. unfold in_range. cbn [r_front r_ext]. lia. }
    split.
    - repeat split; eauto.
    - destruct (space_dec exec dflt) as [->|Hne]; auto. right. intros [[A|A] [B|B]]; apply Hne; eauto.
  Qed.

  Lemma unpack_no_throw exec dflt nb : unpack f fields m exec dflt nb <> Throw.
  Proof.
    unfold unpack. cbv zeta.
    assert (K0 : forall a, fill_in_function f fields m exec a <> Throw).
    { intros a. unfold fill_in_function. apply run_fails. intros i j. apply (value_no_throw _ 0 i 0 j).
      apply completes_pt; auto. }
    assert (K1 : forall a c, fill_in_deriv1 f fields m exec a c <> Throw).
    { intros a c. unfold fill_in_deriv1. apply run_fails. intros k j. apply (value_no_throw _ k c 0 j).
      apply completes_pt; auto. }
    assert (K2 : forall a c, fill_in_deriv2 f fields m exec a c <> Throw).
    { intros a c. unfold fill_in_deriv2. apply run_fails. intros i l. apply (value_no_throw _ 0 i l c).
      apply completes_pt; auto. }
    assert (K3 : forall a c1 c2, fill_in_cross_deriv f fields m exec dflt a c1 c2 <> Throw).
    { intros a c1 c2. unfold fill_in_cross_deriv. apply run_fails. intros k l. apply (value_no_throw _ k c1 l c2).
      apply completes_pt; auto. }
    assert (B : forall A B (x : res A) (k : A -> res B), x <> Throw -> (forall y, k y <> Throw) -> bind x k <> Throw).
    { intros A B [y| | |] k Hx Hk; cbn; auto; discriminate. }
    apply B; [auto|intros ?]. apply B; [auto|intros ?]. apply B; [auto|intros ?]. apply B; [auto|intros ?].
    apply B; [auto|intros ?]. apply B; [auto|intros ?]. apply B; [auto|intros ?]. apply B; [auto|intros ?].
    apply B; [auto|intros ?]. discriminate.
  Qed.
End transfer.
