From Verif Require Import Lib MatrixModel MatrixSpec MatrixProofs MatrixSolveModel MatrixSolveProofs MatrixLinkModel.
From Coq Require Import ZifyBool.
Open Scope Z_scope.

Notation Rwf := (wf R).
Definition is_base (m : Rmatrix) : Prop :=
  match m with Dense _ _ _ | Banded _ _ _ _ _ | Pds _ _ _ _ => True | _ => False end.
(** the inner block of block matrices is one of the LAPACK classes, as built by the factories *)
Definition simple (m : Rmatrix) : Prop :=
  match m with
  | Corner _ _ _ _ _ _ _ q _ | Periodic _ _ _ _ _ _ q _ | Centre _ _ _ _ _ _ q _ => is_base q
  | _ => True
  end.

(** ** cells of the compressed lambda that no legal position uses hold 0 *)
Definition route (n k i j : Z) : Z :=
  if 0 <? wrap_distance n i j then j else j - (n - k) + k + 1.
Definition dead (n kl ku a b : Z) : Prop :=
  let k := Z.max kl ku in
  forall j, 0 <= j < n - k -> cyclic_band n kl ku (n - k + b) j = true ->
            route n k (n - k + b) j <> a.
Definition clean (m : Rmatrix) : Prop :=
  match m with
  | Periodic _ n kl ku g l q d =>
      let k := Z.max kl ku in
      forall a b, 0 <= a < k + 1 -> 0 <= b < k -> dead n kl ku a b ->
        rd2 R l (k + 1) k a b = Ok 0%R
  | _ => True
  end.

Lemma set_clean m i j x m' : Rwf m -> inr R m i j -> clean m -> set R tinyR m i j x = Ok m' -> clean m'.
Proof.
  destruct m as [n a|n kl ku q|n d l|n k g l l1 l2 q d|n kl ku g l q d|n top bot g l q d];
    intros W Hr C E; cbn [set] in E.
  - destruct (wr a (j * n + i) x); cbn [bind] in E; try discriminate; injection E as <-; exact I.
  - destruct (in_band n kl ku i j).
    + destruct (wr q _ x); cbn [bind] in E; try discriminate; injection E as <-; exact I.
    + destruct (check (tinyR x)); cbn [bind] in E; try discriminate; injection E as <-; exact I.
  - destruct (i =? j).
    + destruct (wr d i x); cbn [bind] in E; try discriminate; injection E as <-; exact I.
    + destruct (if j <? i then (j, i) else (i, j)) as [i0 j0].
      destruct (negb (i0 + 1 =? j0)).
      * destruct (check (tinyR x)); cbn [bind] in E; try discriminate; injection E as <-; exact I.
      * destruct (wr l i0 x); cbn [bind] in E; try discriminate; injection E as <-; exact I.
  - unfold corner_set in E.
    destruct (check _); cbn [bind] in E; try discriminate.
    destruct (_ && _)%bool in E.
    { destruct (set R tinyR q i j x); cbn [bind] in E; try discriminate; injection E as <-; exact I. }
    destruct (_ && _)%bool in E.
    { destruct (wr d _ x); cbn [bind] in E; try discriminate; injection E as <-; exact I. }
    destruct (n - k <=? j).
    { destruct (wr2 R g _ _ _ _ x); cbn [bind] in E; try discriminate; injection E as <-; exact I. }
    destruct (wr2 R l _ _ _ _ x); cbn [bind] in E; try discriminate; injection E as <-; exact I.
  - cbn [wf] in W. destruct Hr as [Hi Hj]. cbn [get_size] in Hi, Hj.
    set (k := Z.max kl ku) in *.
    destruct W as [Hk [Hkl [Hku [Hn [Wq [Sq [Lg [Ll Ld]]]]]]]].
    unfold corner_set in E.
    destruct (check _); cbn [bind] in E; try discriminate.
    destruct ((i <? n - k) && (j <? n - k))%bool eqn:E1.
    { destruct (set R tinyR q i j x); cbn [bind] in E; try discriminate; injection E as <-; exact C. }
    destruct ((n - k <=? i) && (n - k <=? j))%bool eqn:E2.
    { destruct (wr d _ x); cbn [bind] in E; try discriminate; injection E as <-; exact C. }
    destruct (n - k <=? j) eqn:E3.
    { destruct (wr2 R g _ _ _ _ x); cbn [bind] in E; try discriminate; injection E as <-; exact C. }
    destruct (wrap_spec n kl ku i j) as [Hw1 Hw2]; try fold k; try lia.
    cbv zeta in E. rewrite Hw1 in E. fold k in Hw2.
    destruct (cyclic_band n kl ku i j) eqn:Ec; simpl negb in E; cbv iota in E.
    2:{ destruct (check (tinyR x)); cbn [bind] in E; try discriminate; injection E as <-; exact C. }
    specialize (Hw2 eq_refl).
    assert (Er : exists l', wr2 R l (k + 1) k (route n k i j) (i - (n - k)) x = Ok l' /\ m' = Periodic R n kl ku g l' q d).
    { unfold route. destruct (0 <? wrap_distance n i j).
      - destruct (wr2 R l (k+1) k j _ x) as [l'| | |]; cbn [bind] in E; try discriminate.
        injection E as <-; eauto.
      - destruct (wr2 R l (k+1) k _ _ x) as [l'| | |]; cbn [bind] in E; try discriminate.
        injection E as <-; eauto. }
    destruct Er as [l' [El ->]].
    assert (Hrt : 0 <= route n k i j < k + 1).
    { unfold route. destruct (0 <? wrap_distance n i j) eqn:Ed; lia. }
    destruct (wr2_ok R l (k + 1) k (route n k i j) (i - (n - k)) x) as [l2 [El2 [_ Gl]]]; [lia|lia|lia|].
    rewrite El in El2; injection El2 as <-.
    cbn [clean]. fold k. intros a b Ha Hb Hd. rewrite Gl.
    destruct (same_pos _ _ a b) eqn:Es.
    + exfalso. unfold same_pos in Es. assert (route n k i j = a /\ i - (n - k) = b) as [Hra Hib] by lia.
      apply (Hd j); fold k; try lia.
      * replace (n - k + b) with i by lia. exact Ec.
      * replace (n - k + b) with i by lia. exact Hra.
    + apply C; assumption.
  - unfold corner_set in E.
    destruct (check _); cbn [bind] in E; try discriminate.
    destruct (_ && _)%bool in E.
    { destruct (set R tinyR q _ _ x); cbn [bind] in E; try discriminate; injection E as <-; exact I. }
    destruct (_ && _)%bool in E.
    { destruct (wr d _ x); cbn [bind] in E; try discriminate; injection E as <-; exact I. }
    destruct (_ <=? _) in E.
    { destruct (wr2 R g _ _ _ _ x); cbn [bind] in E; try discriminate; injection E as <-; exact I. }
    destruct (wr2 R l _ _ _ _ x); cbn [bind] in E; try discriminate; injection E as <-; exact I.
Qed.

Lemma base_shape m m' : shape_of m' = shape_of m -> is_base m -> is_base m'.
Proof. destruct m; destruct m'; simpl; intros H; auto; discriminate. Qed.

Lemma simple_shape m m' : shape_of m' = shape_of m -> simple m -> simple m'.
Proof.
  destruct m; destruct m'; cbn [shape_of simple]; intros H; auto; try discriminate;
    injection H; intros; eapply base_shape; eauto.
Qed.

Lemma set_all_clean h : forall m m', Rwf m -> Forall (legal_write tinyR (shape_of m)) h ->
  clean m -> set_all R tinyR m h = Ok m' -> clean m'.
Proof.
  induction h as [|[[i j] x] h IH]; intros m m' W F C E; cbn [set_all] in E.
  - injection E as <-; exact C.
  - inversion F as [|w t Hw Ft]; subst. destruct Hw as [Hi [Hj Hs]].
    rewrite order_shape in Hi, Hj.
    destruct (set_step R 0%R tinyR m W i j x) as [m1 [E1 [W1 [S1 _]]]]; [split; assumption|exact Hs|].
    rewrite E1 in E; cbn [bind] in E.
    eapply (IH m1); try eassumption.
    + rewrite S1; exact Ft.
    + eapply set_clean; [exact W| |exact C|exact E1]. split; assumption.
Qed.

(** ** the matrix read by get_element is the one the solver works on *)
Lemma val_get_corner n k g l l1 l2 q d i j :
  Rwf (Corner R n k g l l1 l2 q d) -> (i < Z.to_nat n)%nat -> (j < Z.to_nat n)%nat ->
  elems (Corner R n k g l l1 l2 q d) i j =
  represented FullLambda (blocks_of n k g l l1 l2 d) (elems q) i j.
Proof.
  intros W Hi Hj. cbn [wf] in W. destruct W as [Hk [Wq [Sq [Lg [-> [-> [Ll Ld]]]]]]].
  unfold elems, Rget. cbn [get]. unfold corner_get, check.
  replace ((0 <=? Z.of_nat i) && (Z.of_nat i <? n) && (0 <=? Z.of_nat j) && (Z.of_nat j <? n))%bool with true by lia.
  cbn [bind]. unfold represented, block, lambda_full, transp, blocks_of; cbn [nb gam lam del].
  replace (Nat.ltb i (Z.to_nat (n - k))) with (Z.of_nat i <? n - k) by lia.
  replace (Nat.ltb j (Z.to_nat (n - k))) with (Z.of_nat j <? n - k) by lia.
  destruct (Z.of_nat i <? n - k) eqn:Ei; destruct (Z.of_nat j <? n - k) eqn:Ej; cbn [andb].
  - reflexivity.
  - replace ((n - k <=? Z.of_nat i) && (n - k <=? Z.of_nat j))%bool with false by lia.
    replace (n - k <=? Z.of_nat j) with true by lia.
    replace (Z.of_nat (j - Z.to_nat (n - k))) with (Z.of_nat j - (n - k)) by lia. reflexivity.
  - replace ((n - k <=? Z.of_nat i) && (n - k <=? Z.of_nat j))%bool with false by lia.
    replace (n - k <=? Z.of_nat j) with false by lia.
    replace (Z.of_nat (i - Z.to_nat (n - k))) with (Z.of_nat i - (n - k)) by lia. reflexivity.
  - replace ((n - k <=? Z.of_nat i) && (n - k <=? Z.of_nat j))%bool with true by lia.
    replace ((Z.of_nat i - (n - k) <? k) && (Z.of_nat j - (n - k) <? k))%bool with true by lia. cbn [bind].
    replace (Z.of_nat (i - Z.to_nat (n - k))) with (Z.of_nat i - (n - k)) by lia.
    replace (Z.of_nat (j - Z.to_nat (n - k))) with (Z.of_nat j - (n - k)) by lia. reflexivity.
Qed.

Lemma val_get_periodic n kl ku g l q d i j :
  Rwf (Periodic R n kl ku g l q d) -> clean (Periodic R n kl ku g l q d) ->
  (i < Z.to_nat n)%nat -> (j < Z.to_nat n)%nat ->
  elems (Periodic R n kl ku g l q d) i j =
  represented PeriodicLambda (blocks_of n (Z.max kl ku) g l (Z.max kl ku + 1) (Z.max kl ku) d) (elems q) i j.
Proof.
  intros W C Hi Hj. cbn [wf] in W. cbn [clean] in C. set (k := Z.max kl ku) in *.
  destruct W as [Hk [Hkl [Hku [Hn [Wq [Sq [Lg [Ll Ld]]]]]]]].
  unfold elems, Rget. cbn [get]. fold k. unfold corner_get, check.
  replace ((0 <=? Z.of_nat i) && (Z.of_nat i <? n) && (0 <=? Z.of_nat j) && (Z.of_nat j <? n))%bool with true by lia.
  cbn [bind]. unfold represented, block, lambda_full, uncompress, blocks_of; cbn [nb kk gam lam del].
  replace (Nat.ltb i (Z.to_nat (n - k))) with (Z.of_nat i <? n - k) by lia.
  replace (Nat.ltb j (Z.to_nat (n - k))) with (Z.of_nat j <? n - k) by lia.
  destruct (Z.of_nat i <? n - k) eqn:Ei; destruct (Z.of_nat j <? n - k) eqn:Ej; cbn [andb].
  - reflexivity.
  - replace ((n - k <=? Z.of_nat i) && (n - k <=? Z.of_nat j))%bool with false by lia.
    replace (n - k <=? Z.of_nat j) with true by lia.
    replace (Z.of_nat (j - Z.to_nat (n - k))) with (Z.of_nat j - (n - k)) by lia. reflexivity.
  - replace ((n - k <=? Z.of_nat i) && (n - k <=? Z.of_nat j))%bool with false by lia.
    replace (n - k <=? Z.of_nat j) with false by lia.
    set (b := Z.of_nat i - (n - k)).
    replace (Z.of_nat (i - Z.to_nat (n - k))) with b by lia.
    set (J := Z.of_nat j) in *.
    replace (Nat.leb j (i - Z.to_nat (n - k))) with (J <=? b) by lia.
    replace (Nat.leb (Z.to_nat (n - k) + (i - Z.to_nat (n - k))) (j + Z.to_nat k)) with (n - k + b <=? J + k) by lia.
    assert (Hlow : n - k + b <= J + k ->
       Z.of_nat (j + Z.to_nat k + 1 - Z.to_nat (n - k)) = J - (n - k) + k + 1) by lia.
    assert (Hi' : Z.of_nat i = n - k + b) by lia. rewrite Hi'.
    destruct (wrap_spec n kl ku (n - k + b) J) as [Hw1 Hw2]; try fold k; try lia.
    rewrite Hw1. fold k in Hw2.
    (* a cell is dead unless it is the route of an in-band column *)
    assert (Hd : forall a, 0 <= a < k + 1 ->
              (forall J', 0 <= J' < n - k -> cyclic_band n kl ku (n - k + b) J' = true ->
                          route n k (n - k + b) J' <> a) -> val (rd2 R l (k + 1) k a b) = 0%R).
    { intros a Ha Hda. rewrite C; [reflexivity|exact Ha|lia|]. unfold dead; fold k. exact Hda. }
    assert (Hroute : forall J', 0 <= J' < n - k -> cyclic_band n kl ku (n - k + b) J' = true ->
              (route n k (n - k + b) J' = J' /\ J' <= b /\ 0 < wrap_distance n (n - k + b) J') \/
              (route n k (n - k + b) J' = J' - (n - k) + k + 1 /\ b + 1 <= J' - (n - k) + k + 1
               /\ wrap_distance n (n - k + b) J' <= 0)).
    { intros J' HJ' Hc. destruct (wrap_spec n kl ku (n - k + b) J') as [_ Hv2]; try fold k; try lia.
      fold k in Hv2. specialize (Hv2 Hc). unfold route.
      destruct (0 <? wrap_distance n (n - k + b) J') eqn:Ed; lia. }
    destruct (cyclic_band n kl ku (n - k + b) J) eqn:Ec; simpl negb; cbv iota.
    + specialize (Hw2 eq_refl). pose proof (Hroute J ltac:(lia) Ec) as HrJ.
      destruct (0 <? wrap_distance n (n - k + b) J) eqn:Ed.
      * replace (J <=? b) with true by lia.
        replace (n - k + b - (n - k)) with b by lia.
        destruct (n - k + b <=? J + k) eqn:El; [|lra].
        rewrite Hlow by lia. rewrite (Hd (J - (n - k) + k + 1)); [lra|lia|].
        intros J' HJ' Hc'. destruct (Hroute J' HJ' Hc') as [[-> [? ?]]|[-> [? ?]]]; [lia|].
        intros Heq. assert (J' = J) by lia. subst J'. lia.
      * replace (n - k + b <=? J + k) with true by lia.
        replace (n - k + b - (n - k)) with b by lia.
        rewrite Hlow by lia.
        destruct (J <=? b) eqn:El; [|lra].
        rewrite (Hd J); [lra|lia|].
        intros J' HJ' Hc'. destruct (Hroute J' HJ' Hc') as [[-> [? ?]]|[-> [? ?]]]; [|lia].
        intros Heq. subst J'. lia.
    + destruct (J <=? b) eqn:El; destruct (n - k + b <=? J + k) eqn:El2; try rewrite Hlow by lia.
      * rewrite (Hd J), (Hd (J - (n - k) + k + 1)); [simpl; lra|lia| |lia|].
        -- intros J' HJ' Hc'. destruct (Hroute J' HJ' Hc') as [[-> [? ?]]|[-> [? ?]]]; [lia|].
           intros Heq. assert (J' = J) by lia. subst J'. congruence.
        -- intros J' HJ' Hc'. destruct (Hroute J' HJ' Hc') as [[-> [? ?]]|[-> [? ?]]]; [|lia].
           intros Heq. subst J'. congruence.
      * rewrite (Hd J); [simpl; lra|lia|].
        intros J' HJ' Hc'. destruct (Hroute J' HJ' Hc') as [[-> [? ?]]|[-> [? ?]]]; [|lia].
        intros Heq. subst J'. congruence.
      * rewrite (Hd (J - (n - k) + k + 1)); [simpl; lra|lia|].
        intros J' HJ' Hc'. destruct (Hroute J' HJ' Hc') as [[-> [? ?]]|[-> [? ?]]]; [lia|].
        intros Heq. assert (J' = J) by lia. subst J'. congruence.
      * simpl; lra.
  - replace ((n - k <=? Z.of_nat i) && (n - k <=? Z.of_nat j))%bool with true by lia.
    replace ((Z.of_nat i - (n - k) <? k) && (Z.of_nat j - (n - k) <? k))%bool with true by lia. cbn [bind].
    replace (Z.of_nat (i - Z.to_nat (n - k))) with (Z.of_nat i - (n - k)) by lia.
    replace (Z.of_nat (j - Z.to_nat (n - k))) with (Z.of_nat j - (n - k)) by lia. reflexivity.
Qed.

Lemma val_get_centre n top bot g l q d i j :
  Rwf (Centre R n top bot g l q d) -> (i < Z.to_nat n)%nat -> (j < Z.to_nat n)%nat ->
  elems (Centre R n top bot g l q d) i j =
  represented FullLambda (blocks_of n (top + bot) g l (n - (top + bot)) (top + bot) d) (elems q)
    (to_corner (Z.to_nat (n - (top + bot))) (Z.to_nat top) i)
    (to_corner (Z.to_nat (n - (top + bot))) (Z.to_nat top) j).
Proof.
  intros W Hi Hj. cbn [wf] in W. set (k := top + bot) in *.
  destruct W as [Ht [Hb [Hk [Wq [Sq [Lg [Ll Ld]]]]]]].
  assert (Hadj : forall i, (i < Z.to_nat n)%nat ->
      adjust_index n top bot (n - k) (Z.of_nat i) = Z.of_nat (to_corner (Z.to_nat (n - k)) (Z.to_nat top) i)).
  { intros i0 Hi0. unfold adjust_index, to_corner.
    destruct (Z.of_nat i0 <? top) eqn:E1.
    - replace (Nat.ltb i0 (Z.to_nat top)) with true by lia. lia.
    - replace (Nat.ltb i0 (Z.to_nat top)) with false by lia.
      destruct (Z.of_nat i0 <? n - bot) eqn:E2.
      + replace (Nat.ltb i0 (Z.to_nat top + Z.to_nat (n - k))) with true by lia. lia.
      + replace (Nat.ltb i0 (Z.to_nat top + Z.to_nat (n - k))) with false by lia. reflexivity. }
  rewrite <- (val_get_corner n k g l (n - k) k q d).
  - unfold elems, Rget. cbn [get]. rewrite Sq. fold k. rewrite !Hadj by assumption. reflexivity.
  - cbn [wf]. repeat split; try assumption; lia.
  - pose proof (to_corner_bound (Z.to_nat (n - k)) (Z.to_nat top) (Z.to_nat bot) i). lia.
  - pose proof (to_corner_bound (Z.to_nat (n - k)) (Z.to_nat top) (Z.to_nat bot) j). lia.
Qed.

(** ** end to end *)
Section Solve.
Variable lapack lapackT : routine -> nat -> mat -> vec -> vec.

(** LAPACK solves the matrices it is handed for [m] (and their transposes) *)
Definition lapack_ok (r : routine) (n : nat) (M : mat) : Prop :=
  solves n M (lapack r n M) /\ solves n (transp M) (lapackT r n M).

Definition schur (kd : lambda_kind) (B : blocks) (q : Rmatrix) : mat :=
  delta_to_factorise kd B (lap lapack q).

Definition oracle_ok (m : Rmatrix) : Prop :=
  match m with
  | Dense _ n _ | Banded _ n _ _ _ | Pds _ n _ _ => lapack_ok (routine_of m) (Z.to_nat n) (elems m)
  | Corner _ n k g l l1 l2 q d =>
      lapack_ok (routine_of q) (Z.to_nat (n - k)) (elems q) /\
      lapack_ok General (Z.to_nat k) (schur FullLambda (blocks_of n k g l l1 l2 d) q)
  | Periodic _ n kl ku g l q d =>
      let k := Z.max kl ku in
      lapack_ok (routine_of q) (Z.to_nat (n - k)) (elems q) /\
      lapack_ok General (Z.to_nat k) (schur PeriodicLambda (blocks_of n k g l (k + 1) k d) q)
  | Centre _ n top bot g l q d =>
      let k := top + bot in
      lapack_ok (routine_of q) (Z.to_nat (n - k)) (elems q) /\
      lapack_ok General (Z.to_nat k) (schur FullLambda (blocks_of n k g l (n - k) k d) q)
  end.

(** no overlap of the memcpy of Matrix_Centre_Block *)
Definition top_fits (m : Rmatrix) : Prop :=
  match m with Centre _ n top bot _ _ _ _ => top <= n - (top + bot) | _ => True end.

Lemma solves_ext n M M' s : (forall i j, (i < n)%nat -> (j < n)%nat -> M i j = M' i j) ->
  solves n M s -> solves n M' s.
Proof.
  intros H Hs b i Hi. rewrite <- (Hs b i Hi). unfold mulv. apply Rsum_ext. intros j Hj.
  rewrite H by assumption. reflexivity.
Qed.

Lemma msolve_correct m swap b :
  Rwf m -> clean m -> oracle_ok m -> top_fits m ->
  exists x, msolve lapack m swap b = Ok x /\
    forall i, (i < Z.to_nat (get_size R m))%nat ->
      mulv (Z.to_nat (get_size R m)) (elems m) x i = b i.
Proof.
  destruct m as [n a|n kl ku q|n d l|n k g l l1 l2 q d|n kl ku g l q d|n top bot g l q d];
    intros W C O T; cbn [get_size].
  - eexists; split; [reflexivity|]. intros i Hi. cbn [oracle_ok] in O. destruct O as [O _].
    rewrite <- (O b i Hi). unfold mulv. apply Rsum_ext. intros j Hj.
    f_equal. apply (on_view_in 0). exact Hj.
  - eexists; split; [reflexivity|]. intros i Hi. cbn [oracle_ok] in O. destruct O as [O _].
    rewrite <- (O b i Hi). unfold mulv. apply Rsum_ext. intros j Hj.
    f_equal. apply (on_view_in 0). exact Hj.
  - eexists; split; [reflexivity|]. intros i Hi. cbn [oracle_ok] in O. destruct O as [O _].
    rewrite <- (O b i Hi). unfold mulv. apply Rsum_ext. intros j Hj.
    f_equal. apply (on_view_in 0). exact Hj.
  - eexists; split; [reflexivity|].
    pose proof W as W'. cbn [wf] in W'. destruct W' as [Hk [Wq [Sq _]]].
    cbn [oracle_ok] in O. destruct O as [[Oq _] [Od _]].
    set (B := blocks_of n k g l l1 l2 d) in *.
    assert (HS : solves (nb B + kk B) (represented FullLambda B (elems q)) (block_solve lapack FullLambda B q)).
    { apply corner_solve_correct; [exact I| |].
      - unfold lap. rewrite Sq. exact Oq.
      - exact Od. }
    assert (En : Z.to_nat n = (nb B + kk B)%nat) by (unfold B; simpl; lia).
    rewrite En. eapply solves_ext; [|exact HS].
    intros i j Hi Hj. symmetry. apply val_get_corner; [exact W|lia|lia].
  - eexists; split; [reflexivity|].
    pose proof W as W'. cbn [wf] in W'. cbv zeta in *. set (k := Z.max kl ku) in *.
    destruct W' as [Hk [Hkl [Hku [Hn [Wq [Sq _]]]]]].
    cbn [oracle_ok] in O. fold k in O. destruct O as [[Oq _] [Od _]].
    set (B := blocks_of n k g l (k + 1) k d) in *.
    assert (HS : solves (nb B + kk B) (represented PeriodicLambda B (elems q)) (block_solve lapack PeriodicLambda B q)).
    { apply corner_solve_correct; [simpl; lia| |].
      - unfold lap. rewrite Sq. exact Oq.
      - exact Od. }
    assert (En : Z.to_nat n = (nb B + kk B)%nat) by (unfold B; simpl; lia).
    rewrite En. eapply solves_ext; [|exact HS].
    intros i j Hi Hj. symmetry. apply val_get_periodic; [exact W|exact C|lia|lia].
  - pose proof W as W'. cbn [wf] in W'. cbv zeta in *. set (k := top + bot) in *.
    destruct W' as [Ht [Hb [Hk [Wq [Sq _]]]]].
    cbn [oracle_ok] in O. fold k in O. destruct O as [[Oq _] [Od _]].
    cbn [top_fits] in T. fold k in T.
    cbn [msolve]. fold k.
    set (B := blocks_of n k g l (n - k) k d) in *.
    assert (HS : solves (nb B + kk B) (represented FullLambda B (elems q)) (block_solve lapack FullLambda B q)).
    { apply corner_solve_correct; [exact I| |].
      - unfold lap. rewrite Sq. exact Oq.
      - exact Od. }
    assert (En : Z.to_nat n = (Z.to_nat top + Z.to_nat (n - k) + Z.to_nat bot)%nat) by lia.
    assert (EB : (nb B + kk B = Z.to_nat top + Z.to_nat (n - k) + Z.to_nat bot)%nat) by (unfold B; simpl; lia).
    rewrite EB in HS.
    destruct (centre_solve_correct (Z.to_nat (n - k)) (Z.to_nat top) (Z.to_nat bot) _ _ swap b ltac:(lia) HS) as [x [Ex Hx]].
    rewrite En. exists x; split; [exact Ex|].
    intros i Hi. rewrite <- (Hx i Hi). unfold mulv. apply Rsum_ext. intros j Hj. f_equal.
    rewrite val_get_centre; [reflexivity|exact W|lia|lia].
Qed.

Lemma msolveT_correct m swap b :
  Rwf m -> clean m -> oracle_ok m -> top_fits m ->
  exists x, msolveT lapack lapackT m swap b = Ok x /\
    forall i, (i < Z.to_nat (get_size R m))%nat ->
      mulv (Z.to_nat (get_size R m)) (transp (elems m)) x i = b i.
Proof.
  destruct m as [n a|n kl ku q|n d l|n k g l l1 l2 q d|n kl ku g l q d|n top bot g l q d];
    intros W C O T; cbn [get_size].
  - eexists; split; [reflexivity|]. intros i Hi. cbn [oracle_ok] in O. destruct O as [_ O].
    rewrite <- (O b i Hi). unfold mulv. apply Rsum_ext. intros j Hj.
    f_equal. apply (on_view_in 0). exact Hj.
  - eexists; split; [reflexivity|]. intros i Hi. cbn [oracle_ok] in O. destruct O as [_ O].
    rewrite <- (O b i Hi). unfold mulv. apply Rsum_ext. intros j Hj.
    f_equal. apply (on_view_in 0). exact Hj.
  - eexists; split; [reflexivity|]. intros i Hi. cbn [oracle_ok] in O. destruct O as [_ O].
    rewrite <- (O b i Hi). unfold mulv. apply Rsum_ext. intros j Hj.
    f_equal. apply (on_view_in 0). exact Hj.
  - eexists; split; [reflexivity|].
    pose proof W as W'. cbn [wf] in W'. destruct W' as [Hk [Wq [Sq _]]].
    cbn [oracle_ok] in O. destruct O as [[Oq OqT] [_ OdT]].
    set (B := blocks_of n k g l l1 l2 d) in *.
    assert (HS : solves (nb B + kk B) (transp (represented FullLambda B (elems q))) (block_solveT lapack lapackT FullLambda B q)).
    { apply corner_solve_transpose_correct; [exact I| | |].
      - unfold lap. rewrite Sq. exact Oq.
      - unfold lapT. rewrite Sq. exact OqT.
      - exact OdT. }
    assert (En : Z.to_nat n = (nb B + kk B)%nat) by (unfold B; simpl; lia).
    rewrite En. eapply solves_ext; [|exact HS].
    intros i j Hi Hj. symmetry. apply val_get_corner; [exact W|lia|lia].
  - eexists; split; [reflexivity|].
    pose proof W as W'. cbn [wf] in W'. cbv zeta in *. set (k := Z.max kl ku) in *.
    destruct W' as [Hk [Hkl [Hku [Hn [Wq [Sq _]]]]]].
    cbn [oracle_ok] in O. fold k in O. destruct O as [[Oq OqT] [_ OdT]].
    set (B := blocks_of n k g l (k + 1) k d) in *.
    assert (HS : solves (nb B + kk B) (transp (represented PeriodicLambda B (elems q))) (block_solveT lapack lapackT PeriodicLambda B q)).
    { apply corner_solve_transpose_correct; [simpl; lia| | |].
      - unfold lap. rewrite Sq. exact Oq.
      - unfold lapT. rewrite Sq. exact OqT.
      - exact OdT. }
    assert (En : Z.to_nat n = (nb B + kk B)%nat) by (unfold B; simpl; lia).
    rewrite En. eapply solves_ext; [|exact HS].
    intros i j Hi Hj. symmetry. apply val_get_periodic; [exact W|exact C|lia|lia].
  - pose proof W as W'. cbn [wf] in W'. cbv zeta in *. set (k := top + bot) in *.
    destruct W' as [Ht [Hb [Hk [Wq [Sq _]]]]].
    cbn [oracle_ok] in O. fold k in O. destruct O as [[Oq OqT] [_ OdT]].
    cbn [top_fits] in T. fold k in T.
    cbn [msolveT]. fold k.
    set (B := blocks_of n k g l (n - k) k d) in *.
    assert (HS : solves (nb B + kk B) (transp (represented FullLambda B (elems q))) (block_solveT lapack lapackT FullLambda B q)).
    { apply corner_solve_transpose_correct; [exact I| | |].
      - unfold lap. rewrite Sq. exact Oq.
      - unfold lapT. rewrite Sq. exact OqT.
      - exact OdT. }
    assert (En : Z.to_nat n = (Z.to_nat top + Z.to_nat (n - k) + Z.to_nat bot)%nat) by lia.
    assert (EB : (nb B + kk B = Z.to_nat top + Z.to_nat (n - k) + Z.to_nat bot)%nat) by (unfold B; simpl; lia).
    rewrite EB in HS.
    destruct (centre_solve_correct (Z.to_nat (n - k)) (Z.to_nat top) (Z.to_nat bot) _ _ swap b ltac:(lia) HS) as [x [Ex Hx]].
    rewrite En. exists x; split; [exact Ex|].
    intros i Hi. rewrite <- (Hx i Hi). unfold mulv. apply Rsum_ext. intros j Hj. f_equal.
    unfold transp. rewrite val_get_centre; [reflexivity|exact W|lia|lia].
Qed.

End Solve.

(** ** factories, end to end *)
Lemma tiny_zero : tinyR 0 = true.
Proof.
  unfold tinyR. rewrite Rabs_R0. destruct (Rlt_dec 0 (1 / 10 ^ 20)) as [|H]; [reflexivity|].
  exfalso. apply H. apply Rdiv_lt_0_compat; [lra|]. apply pow_lt; lra.
Qed.

Lemma make_ok {A} (zero : A) r : admissible r ->
  exists m, make zero r = Ok m /\ wf A m /\ fresh A zero m /\ get_size A m = req_n r /\
    (forall M : Z -> Z -> A, fits zero r M ->
       (forall i j, inr A m i j -> stored (shape_of m) i j = false -> M i j = zero) /\
       (forall i j i' j', alias (shape_of m) i j i' j' = true -> M i j = M i' j')).
Proof.
  destruct r as [n kl ku pds|n kl ku pds|n kl ku pds b1 b2]; cbn [admissible make req_n]; intros H.
  - destruct H as [H1 [H2 H3]].
    destruct (make_new_banded_ok A zero n kl ku pds) as [m [E [W [F [S [St Al]]]]]]; try assumption.
    exists m. repeat (split; [assumption|]). intros M [Hs Hz]. split.
    + intros i j Hr Hst. apply Hz. destruct (band kl ku i j) eqn:Eb; [|reflexivity].
      rewrite (St i j Hr Eb) in Hst; discriminate.
    + intros i j i' j' Ha. eapply sym_alias; [exact Hs|]. apply Al; exact Ha.
  - destruct H as [H1 [H2 [H3 [H4 H5]]]].
    destruct (make_new_periodic_banded_ok A zero (fun _ => true) n kl ku pds) as [m [E [W [F [S [St Al]]]]]]; try assumption.
    exists m. repeat (split; [assumption|]). intros M [Hs Hz]. split.
    + intros i j Hr Hst. apply Hz. destruct (cyclic_band n kl ku i j) eqn:Eb; [|reflexivity].
      rewrite (St i j Hr Eb) in Hst; discriminate.
    + intros i j i' j' Ha. eapply sym_alias; [exact Hs|]. apply Al; exact Ha.
  - destruct H as [H1 [H2 [H3 [H4 H5]]]].
    destruct (make_new_block_ok A zero (fun _ => true) n kl ku pds b1 b2) as [m [E [W [F [S [St Al]]]]]]; try assumption.
    cbv zeta in St.
    exists m. repeat (split; [assumption|]). intros M [Hs Hz]. cbv zeta in Hz. unfold band_start in Hz. split.
    + intros i j Hr Hst.
      set (off := if b2 =? 0 then 0 else b1) in *.
      destruct (band kl ku i j) eqn:Eb.
      * rewrite (St i j Hr) in Hst by auto. discriminate.
      * destruct ((off <=? i) && (i <? off + (n - b1 - b2)) && (off <=? j) && (j <? off + (n - b1 - b2)))%bool eqn:Eo.
        -- apply Hz; try lia; exact Eb.
        -- rewrite (St i j Hr) in Hst by lia. discriminate.
    + intros i j i' j' Ha. eapply sym_alias; [exact Hs|]. apply Al; exact Ha.
Qed.

Lemma factory_stores {A} (zero : A) tiny r M h :
  tiny zero = true -> admissible r -> fits zero r M -> lists_elements zero (req_n r) M h ->
  exists m m', make zero r = Ok m /\ set_all A tiny m h = Ok m' /\
    forall i j, 0 <= i < req_n r -> 0 <= j < req_n r -> get A zero m' i j = Ok (M i j).
Proof.
  intros Ht Ha Hf Hl. destruct (make_ok zero r Ha) as [m [E [W [F [S P]]]]].
  destruct (P M Hf) as [P1 P2].
  destruct (fill_spec A zero tiny m M h W F Ht) as [m' [E' G]].
  - rewrite S; exact Hl.
  - exact P1.
  - intros; apply P2; assumption.
  - exists m, m'. split; [exact E|split; [exact E'|]]. intros; apply G; unfold inr; rewrite S; auto.
Qed.

Lemma new_sized_zeros n k q l1 l2 build (m : Rmatrix) :
  new_corner_sized R 0%R n k q l1 l2 build = Ok m ->
  0 <= l1 * l2 /\ exists g d, m = build g (zeros R 0%R (l1 * l2)) d.
Proof.
  unfold new_corner_sized, check. intros H.
  destruct (alloc R 0%R (k * (n - k))) as [g| | |] eqn:E1; cbn [bind] in H; try discriminate.
  destruct (alloc R 0%R (l1 * l2)) as [l| | |] eqn:E2; cbn [bind] in H; try discriminate.
  destruct (0 <? k) eqn:E3; cbn [bind] in H; try discriminate.
  destruct (alloc R 0%R (k * k)) as [d| | |] eqn:E4; cbn [bind] in H; try discriminate.
  destruct (_ && _)%bool eqn:E5 in H; cbn [bind] in H; try discriminate.
  injection H as <-. unfold alloc in E2. destruct (l1 * l2 <? 0) eqn:E6; [discriminate|].
  injection E2 as <-. split; [lia|eauto].
Qed.

Lemma new_periodic_clean n kl ku q m : new_periodic R 0%R n kl ku q = Ok m -> clean m.
Proof.
  intros H. apply new_sized_zeros in H. destruct H as [_ [g [d ->]]].
  cbn [clean]. cbv zeta. intros a b Ha Hb _. apply rd2_zeros; assumption.
Qed.

Lemma make_clean r m : make 0%R r = Ok m -> clean m.
Proof.
  assert (Hd : forall n m, new_dense R 0%R n = Ok m -> clean m).
  { intros n m' H. unfold new_dense in H. destruct (check _); cbn [bind] in H; try discriminate.
    destruct (alloc _ _ _); cbn [bind] in H; try discriminate. injection H as <-; exact I. }
  assert (Hb : forall n kl ku m, new_banded R 0%R n kl ku = Ok m -> clean m).
  { intros n kl ku m' H. unfold new_banded in H. destruct (check _); cbn [bind] in H; try discriminate.
    destruct (alloc _ _ _); cbn [bind] in H; try discriminate. injection H as <-; exact I. }
  assert (Hp : forall n m, new_pds R 0%R n = Ok m -> clean m).
  { intros n m' H. unfold new_pds in H.
    destruct (alloc _ _ n); cbn [bind] in H; try discriminate.
    destruct (alloc _ _ (n - 1)); cbn [bind] in H; try discriminate. injection H as <-; exact I. }
  assert (Hc : forall n k q m, new_corner R 0%R n k q = Ok m -> clean m).
  { intros n k q m' H. apply new_sized_zeros in H. destruct H as [_ [g [d ->]]]. exact I. }
  assert (He : forall n t b q m, new_centre R 0%R n t b q = Ok m -> clean m).
  { intros n t b q m' H. apply new_sized_zeros in H. destruct H as [_ [g [d ->]]]. exact I. }
  destruct r as [n kl ku pds|n kl ku pds|n kl ku pds b1 b2]; cbn [make].
  - unfold make_new_banded. destruct (_ && _)%bool; [apply Hp|].
    destruct (n <=? _); [apply Hd|apply Hb].
  - unfold make_new_periodic_banded. destruct (_ && _)%bool.
    + destruct (new_pds R 0%R _); cbn [bind]; try discriminate. apply new_periodic_clean.
    + destruct (n * n <=? _); [apply Hd|].
      destruct (new_banded R 0%R _ _ _); cbn [bind]; try discriminate. apply new_periodic_clean.
  - unfold make_new_block_with_banded_region. destruct (_ && _)%bool.
    + destruct (new_pds R 0%R _); cbn [bind]; try discriminate.
      destruct (b2 =? 0); [apply Hc|apply He].
    + destruct (_ <=? _); [apply Hd|].
      destruct (new_banded R 0%R _ _ _); cbn [bind]; try discriminate.
      destruct (b2 =? 0); [apply Hc|apply He].
Qed.

Lemma make_top_fits r m : make 0%R r = Ok m -> no_overlap r ->
  forall m', shape_of m' = shape_of m -> top_fits m'.
Proof.
  intros Hm Hno m' Hs.
  assert (Hc : forall n t b q m, new_centre R 0%R n t b q = Ok m -> exists s, shape_of m = SCentre n t b s).
  { intros n t b q m0 H. apply new_sized_zeros in H. destruct H as [_ [g [d ->]]]. eexists; reflexivity. }
  assert (Hnc : forall n t b s, shape_of m = SCentre n t b s -> t <= n - (t + b)).
  { intros n t b s Hsh.
    assert (Hd : forall n0 m0 n t b s, new_dense R 0%R n0 = Ok m0 -> shape_of m0 = SCentre n t b s -> False).
    { intros n0 m0 n1 t1 b0 s0 H HS. unfold new_dense in H. destruct (check _); cbn [bind] in H; try discriminate.
      destruct (alloc _ _ _); cbn [bind] in H; try discriminate. injection H as <-. discriminate HS. }
    assert (Hb : forall n0 kl ku m0 n t b s, new_banded R 0%R n0 kl ku = Ok m0 -> shape_of m0 = SCentre n t b s -> False).
    { intros n0 kl ku m0 n1 t1 b0 s0 H HS. unfold new_banded in H. destruct (check _); cbn [bind] in H; try discriminate.
      destruct (alloc _ _ _); cbn [bind] in H; try discriminate. injection H as <-. discriminate HS. }
    assert (Hp : forall n0 m0 n t b s, new_pds R 0%R n0 = Ok m0 -> shape_of m0 = SCentre n t b s -> False).
    { intros n0 m0 n1 t1 b0 s0 H HS. unfold new_pds in H.
      destruct (alloc _ _ n0); cbn [bind] in H; try discriminate.
      destruct (alloc _ _ (n0 - 1)); cbn [bind] in H; try discriminate. injection H as <-. discriminate HS. }
    assert (Hpe : forall n0 kl ku q m0 n t b s, new_periodic R 0%R n0 kl ku q = Ok m0 -> shape_of m0 = SCentre n t b s -> False).
    { intros n0 kl ku q m0 n1 t1 b0 s0 H HS. apply new_sized_zeros in H. destruct H as [_ [g [d ->]]]. discriminate HS. }
    assert (Hco : forall n0 k q m0 n t b s, new_corner R 0%R n0 k q = Ok m0 -> shape_of m0 = SCentre n t b s -> False).
    { intros n0 k q m0 n1 t1 b0 s0 H HS. apply new_sized_zeros in H. destruct H as [_ [g [d ->]]]. discriminate HS. }
    destruct r as [n0 kl ku pds|n0 kl ku pds|n0 kl ku pds b1 b2]; cbn [make no_overlap] in *.
    - unfold make_new_banded in Hm. destruct (_ && _)%bool in Hm; [exfalso; eauto|].
      destruct (n0 <=? _) in Hm; exfalso; eauto.
    - unfold make_new_periodic_banded in Hm. destruct (_ && _)%bool in Hm.
      + destruct (new_pds R 0%R _); cbn [bind] in Hm; try discriminate. exfalso; eauto.
      + destruct (n0 * n0 <=? _) in Hm; [exfalso; eauto|].
        destruct (new_banded R 0%R _ _ _); cbn [bind] in Hm; try discriminate. exfalso; eauto.
    - unfold make_new_block_with_banded_region in Hm. destruct (_ && _)%bool in Hm.
      + destruct (new_pds R 0%R _); cbn [bind] in Hm; try discriminate.
        destruct (b2 =? 0) eqn:E2 in Hm; [exfalso; eauto|].
        apply Hc in Hm. destruct Hm as [s0 Hm]. rewrite Hm in Hsh. injection Hsh; intros; lia.
      + destruct (_ <=? _) in Hm; [exfalso; eauto|].
        destruct (new_banded R 0%R _ _ _); cbn [bind] in Hm; try discriminate.
        destruct (b2 =? 0) eqn:E2 in Hm; [exfalso; eauto|].
        apply Hc in Hm. destruct Hm as [s0 Hm]. rewrite Hm in Hsh. injection Hsh; intros; lia. }
  destruct m'; cbn [top_fits]; auto. cbn [shape_of] in Hs. symmetry in Hs. eapply Hnc; exact Hs.
Qed.

Theorem factory_solves_gen lapack lapackT r M h m m' :
  admissible r -> no_overlap r ->
  make 0%R r = Ok m -> set_all R tinyR m h = Ok m' ->
  Forall (legal_write tinyR (shape_of m)) h ->
  (forall i j, 0 <= i < req_n r -> 0 <= j < req_n r -> get R 0%R m' i j = Ok (M i j)) ->
  oracle_ok lapack lapackT m' ->
  forall swap b,
    (exists x, msolve lapack m' swap b = Ok x /\
               is_solution (Z.to_nat (req_n r)) (natmat M) x b) /\
    (exists x, msolveT lapack lapackT m' swap b = Ok x /\
               is_solution (Z.to_nat (req_n r)) (transp (natmat M)) x b).
Proof.
  intros Ha Hno Em Em' Hlegal Hget Ho swap b.
  destruct (make_ok 0%R r Ha) as [m0 [E [W [F [S P]]]]].
  rewrite Em in E; injection E as <-.
  destruct (set_all_spec R 0%R tinyR h m W Hlegal) as [m2 [E2 [W2 [S2 _]]]].
  rewrite Em' in E2; injection E2 as <-.
  assert (C : clean m') by (eapply set_all_clean; [exact W|exact Hlegal|eapply make_clean; exact Em|exact Em']).
  assert (T : top_fits m') by (eapply make_top_fits; eauto).
  assert (G : forall i j, (i < Z.to_nat (req_n r))%nat -> (j < Z.to_nat (req_n r))%nat ->
               elems m' i j = natmat M i j).
  { intros i j Hi Hj. unfold elems, Rget, natmat. rewrite Hget by lia. reflexivity. }
  assert (Sz : get_size R m' = req_n r).
  { rewrite <- order_shape, S2, order_shape. exact S. }
  split.
  - destruct (msolve_correct lapack lapackT m' swap b W2 C Ho T) as [x [Ex Hx]].
    exists x; split; [exact Ex|]. rewrite Sz in Hx. intros i Hi. rewrite <- (Hx i Hi).
    unfold mulv. apply Rsum_ext. intros j Hj. rewrite G by assumption. reflexivity.
  - destruct (msolveT_correct lapack lapackT m' swap b W2 C Ho T) as [x [Ex Hx]].
    exists x; split; [exact Ex|]. rewrite Sz in Hx. intros i Hi. rewrite <- (Hx i Hi).
    unfold mulv. apply Rsum_ext. intros j Hj. unfold transp. rewrite G by assumption. reflexivity.
Qed.


(** the history of a filled matrix is legal and gives back its elements *)
Lemma factory_legal r M h m m' :
  admissible r -> fits 0%R r M -> lists_elements 0%R (req_n r) M h ->
  make 0%R r = Ok m -> set_all R tinyR m h = Ok m' ->
  Forall (legal_write tinyR (shape_of m)) h /\
  (forall i j, 0 <= i < req_n r -> 0 <= j < req_n r -> get R 0%R m' i j = Ok (M i j)).
Proof.
  intros Ha Hf Hl Em Em'.
  destruct (make_ok 0%R r Ha) as [m0 [E [W [F [S P]]]]].
  rewrite Em in E; injection E as <-.
  destruct (P M Hf) as [P1 P2]. split.
  - apply Forall_forall. intros [[i j] x] Hin. destruct Hl as [H1 H2].
    destruct (H1 i j x Hin) as [Hi [Hj ->]].
    unfold legal_write. rewrite order_shape, S. split; [exact Hi|split; [exact Hj|]].
    destruct (stored (shape_of m) i j) eqn:Es; [left; reflexivity|right].
    rewrite P1; [exact tiny_zero|split; rewrite S; assumption|exact Es].
  - destruct (factory_stores 0%R tinyR r M h tiny_zero Ha Hf Hl) as [m3 [m4 [E3 [E4 G]]]].
    rewrite Em in E3; injection E3 as <-. rewrite Em' in E4; injection E4 as <-. exact G.
Qed.

(** ** reducing the oracle hypothesis to the correctness of LAPACK on regular matrices *)
Lemma posdef_regular n M : posdef n M -> regular n M.
Proof.
  intros H x Hx i Hi. destruct (Req_dec (x i) 0) as [E|E]; [exact E|exfalso].
  assert (P : (0 < Rsum n (fun i => Rsum n (fun j => x i * M i j * x j)))%R) by (apply H; eauto).
  rewrite (Rsum_zero n) in P; [lra|].
  intros a Ha. rewrite (Rsum_ext n _ (fun j => x a * (M a j * x j))%R) by (intros; lra).
  rewrite Rsum_scal, Hx by exact Ha. lra.
Qed.

Lemma Rsum_shift_support n s m f :
  (s + m <= n)%nat -> (forall i, (i < s)%nat \/ (s + m <= i)%nat -> f i = 0%R) ->
  Rsum n f = Rsum m (fun i => f (s + i)%nat).
Proof.
  intros H Hf. replace n with (s + (m + (n - s - m)))%nat by lia.
  rewrite Rsum_app, Rsum_app.
  rewrite (Rsum_zero s) by (intros; apply Hf; lia).
  rewrite (Rsum_zero (n - s - m)) by (intros; apply Hf; lia). lra.
Qed.

Lemma posdef_block n M s m : (s + m <= n)%nat -> posdef n M ->
  posdef m (fun i j => M (s + i)%nat (s + j)%nat).
Proof.
  intros Hm H x [i [Hi Hx]].
  set (y := fun p => if (Nat.leb s p && Nat.ltb p (s + m))%bool then x (p - s)%nat else 0%R).
  assert (Hy : forall a, (a < m)%nat -> y (s + a)%nat = x a).
  { intros a Ha. unfold y. replace (Nat.leb s (s + a) && Nat.ltb (s + a) (s + m))%bool with true by lia.
    f_equal; lia. }
  assert (Hy0 : forall p, (p < s)%nat \/ (s + m <= p)%nat -> y p = 0%R).
  { intros p Hp. unfold y. replace (Nat.leb s p && Nat.ltb p (s + m))%bool with false by lia. reflexivity. }
  assert (P : (0 < Rsum n (fun i => Rsum n (fun j => y i * M i j * y j)))%R).
  { apply H. exists (s + i)%nat. split; [lia|]. rewrite Hy by exact Hi. exact Hx. }
  rewrite (Rsum_shift_support n s m) in P; [|exact Hm|].
  2:{ intros p Hp. apply Rsum_zero. intros. rewrite Hy0 by exact Hp. lra. }
  erewrite Rsum_ext; [exact P|]. intros a Ha. cbv beta.
  rewrite (Rsum_shift_support n s m); [|exact Hm|].
  2:{ intros p Hp. rewrite (Hy0 p) by exact Hp. lra. }
  apply Rsum_ext. intros b Hb. rewrite !Hy by assumption. reflexivity.
Qed.

Lemma regular_ext n M M' : (forall i j, (i < n)%nat -> (j < n)%nat -> M i j = M' i j) ->
  regular n M -> regular n M'.
Proof.
  intros H HM x Hx. apply HM. intros i Hi. rewrite <- (Hx i Hi). apply Rsum_ext. intros j Hj.
  rewrite H by assumption. reflexivity.
Qed.

Lemma regular_injective n M : regular n M <-> injective_mat n M.
Proof. split; intros H x Hx; apply H; exact Hx. Qed.

(** possible shapes of a factory result *)
Definition leaf_shape (pds : bool) (s : shape) : Prop :=
  match s with SDense _ | SBanded _ _ _ => True | SPds _ => pds = true | _ => False end.
Definition factory_shape (r : request) (s : shape) : Prop :=
  match s with
  | SCorner n k q => k = n - region_size r /\ region_start r = 0 /\ leaf_shape (req_pds r) q
  | SPeriodic n kl ku q => Z.max kl ku = n - region_size r /\ region_start r = 0 /\ leaf_shape (req_pds r) q
  | SCentre n t b q => t = region_start r /\ t + b = n - region_size r /\ leaf_shape (req_pds r) q
  | _ => leaf_shape (req_pds r) s
  end.

Lemma make_shape r m : make 0%R r = Ok m -> factory_shape r (shape_of m).
Proof.
  assert (Hd : forall n m, new_dense R 0%R n = Ok m -> shape_of m = SDense n).
  { unfold new_dense, check. intros n m' H. destruct (0 <? n); cbn [bind] in H; try discriminate.
    destruct (alloc _ _ _); cbn [bind] in H; try discriminate. injection H as <-. reflexivity. }
  assert (Hb : forall n kl ku m, new_banded R 0%R n kl ku = Ok m -> shape_of m = SBanded n kl ku).
  { unfold new_banded. intros n kl ku m' H. destruct (check _); cbn [bind] in H; try discriminate.
    destruct (alloc _ _ _); cbn [bind] in H; try discriminate. injection H as <-. reflexivity. }
  assert (Hp : forall n m, new_pds R 0%R n = Ok m -> shape_of m = SPds n).
  { unfold new_pds. intros n m' H. destruct (alloc _ _ n); cbn [bind] in H; try discriminate.
    destruct (alloc _ _ (n - 1)); cbn [bind] in H; try discriminate. injection H as <-. reflexivity. }
  assert (Hc : forall n k q m, new_corner R 0%R n k q = Ok m -> shape_of m = SCorner n k (shape_of q)).
  { intros n k q m' H. apply new_sized_zeros in H. destruct H as [_ [g [d ->]]]. reflexivity. }
  assert (He : forall n t b q m, new_centre R 0%R n t b q = Ok m -> shape_of m = SCentre n t b (shape_of q)).
  { intros n t b q m' H. apply new_sized_zeros in H. destruct H as [_ [g [d ->]]]. reflexivity. }
  assert (Hpe : forall n kl ku q m, new_periodic R 0%R n kl ku q = Ok m -> shape_of m = SPeriodic n kl ku (shape_of q)).
  { intros n kl ku q m' H. apply new_sized_zeros in H. destruct H as [_ [g [d ->]]]. reflexivity. }
  destruct r as [n kl ku pds|n kl ku pds|n kl ku pds b1 b2]; cbn [make].
  - unfold make_new_banded. destruct ((kl =? ku) && (kl =? 1) && pds)%bool eqn:E.
    + intros H. rewrite (Hp _ _ H). cbn. destruct pds; [reflexivity|lia].
    + destruct (n <=? _); intros H; [rewrite (Hd _ _ H)|rewrite (Hb _ _ _ _ H)]; exact I.
  - unfold make_new_periodic_banded. destruct (pds && (kl =? ku) && (kl =? 1))%bool eqn:E.
    + destruct (new_pds R 0%R _) as [q| | |] eqn:Eq; cbn [bind]; try discriminate.
      intros H. rewrite (Hpe _ _ _ _ _ H), (Hp _ _ Eq). cbn. destruct pds; repeat split; lia.
    + destruct (n * n <=? _); [intros H; rewrite (Hd _ _ H); exact I|].
      destruct (new_banded R 0%R _ _ _) as [q| | |] eqn:Eq; cbn [bind]; try discriminate.
      intros H. rewrite (Hpe _ _ _ _ _ H), (Hb _ _ _ _ Eq). cbn. repeat split; lia.
  - unfold make_new_block_with_banded_region. destruct (pds && (kl =? ku) && (kl =? 1))%bool eqn:E.
    + destruct (new_pds R 0%R _) as [q| | |] eqn:Eq; cbn [bind]; try discriminate.
      destruct (b2 =? 0) eqn:E2; intros H.
      * rewrite (Hc _ _ _ _ H), (Hp _ _ Eq). cbn. unfold band_start. rewrite E2. destruct pds; repeat split; lia.
      * rewrite (He _ _ _ _ _ H), (Hp _ _ Eq). cbn. unfold band_start. rewrite E2. destruct pds; repeat split; lia.
    + destruct (_ <=? _); [intros H; rewrite (Hd _ _ H); exact I|].
      destruct (new_banded R 0%R _ _ _) as [q| | |] eqn:Eq; cbn [bind]; try discriminate.
      destruct (b2 =? 0) eqn:E2; intros H.
      * rewrite (Hc _ _ _ _ H), (Hb _ _ _ _ Eq). cbn. unfold band_start. rewrite E2. repeat split; lia.
      * rewrite (He _ _ _ _ _ H), (Hb _ _ _ _ Eq). cbn. unfold band_start. rewrite E2. repeat split; lia.
Qed.

Lemma leaf_oracle lapack lapackT (pds : bool) q M :
  lapack_correct lapack lapackT ->
  leaf_shape pds (shape_of q) ->
  let n := Z.to_nat (get_size R q) in
  (forall i j, (i < n)%nat -> (j < n)%nat -> elems q i j = M i j) ->
  (pds = true -> (forall i j, (i < n)%nat -> (j < n)%nat -> M i j = M j i) /\ posdef n M) ->
  regular n M ->
  lapack_ok lapack lapackT (routine_of q) n (elems q).
Proof.
  intros [LG LP] Hs n He Hp Hr.
  assert (He' : forall i j, (i < n)%nat -> (j < n)%nat -> M i j = elems q i j) by (intros; symmetry; auto).
  assert (HrE : regular n (elems q)) by (eapply regular_ext; eauto).
  assert (HG : lapack_ok lapack lapackT General n (elems q)).
  { destruct (LG n _ HrE) as [H1 H2]. split; intros b i Hi; [apply H1|apply H2]; exact Hi. }
  destruct q; cbn [shape_of leaf_shape] in Hs; try contradiction; try exact HG.
  subst pds. destruct (Hp eq_refl) as [Hsym Hpd]. cbn [routine_of].
  destruct (LP n (elems (Pds R n0 d l))) as [H1 H2].
  - intros i j Hi Hj. rewrite !He by assumption. apply Hsym; assumption.
  - intros x Hx. erewrite Rsum_ext; [apply (Hpd x Hx)|]. intros i Hi. apply Rsum_ext. intros j Hj.
    cbv beta. rewrite He by assumption. reflexivity.
  - split; intros b i Hi; [apply H1|apply H2]; exact Hi.
Qed.

Theorem factory_solves_regular_gen lapack lapackT r M h m m' :
  lapack_correct lapack lapackT ->
  admissible r -> (req_pds r = true -> forall i j, M i j = M j i) -> no_overlap r ->
  solvable r M ->
  make 0%R r = Ok m -> set_all R tinyR m h = Ok m' ->
  Forall (legal_write tinyR (shape_of m)) h ->
  (forall i j, 0 <= i < req_n r -> 0 <= j < req_n r -> get R 0%R m' i j = Ok (M i j)) ->
  forall swap b,
    (exists x, msolve lapack m' swap b = Ok x /\
               is_solution (Z.to_nat (req_n r)) (natmat M) x b) /\
    (exists x, msolveT lapack lapackT m' swap b = Ok x /\
               is_solution (Z.to_nat (req_n r)) (transp (natmat M)) x b).
Proof.
  intros HL Ha Hsym Hno Hsol Em Em' Hlegal Hget swap b.
  eapply factory_solves_gen; eauto.
  (* the oracle hypothesis *)
  set (n := req_n r) in *. set (nn := Z.to_nat n) in *.
  destruct (make_ok 0%R r Ha) as [m0 [E [W [F [S P]]]]].
  rewrite Em in E; injection E as <-. fold n in S.
  destruct (set_all_spec R 0%R tinyR h m W Hlegal) as [m2 [E2 [W2 [S2 _]]]].
  rewrite Em' in E2; injection E2 as <-.
  assert (C : clean m') by (eapply set_all_clean; [exact W|exact Hlegal|eapply make_clean; exact Em|exact Em']).
  assert (G : forall i j, (i < nn)%nat -> (j < nn)%nat -> elems m' i j = natmat M i j).
  { intros i j Hi Hj. unfold elems, Rget, natmat. rewrite Hget by (fold n; lia). reflexivity. }
  assert (Sz : get_size R m' = n) by (rewrite <- order_shape, S2, order_shape; exact S).
  pose proof (make_shape r m Em) as Sh. rewrite <- S2 in Sh.
  (* regularity and positivity of M and of its region *)
  set (rs := Z.to_nat (region_start r)). set (rz := Z.to_nat (region_size r)).
  assert (Hrz : 0 <= region_start r /\ 0 <= region_size r /\ region_start r + region_size r <= n).
  { unfold n. destruct r; cbn in *; unfold band_start; try lia. destruct (_ =? 0) eqn:?; lia. }
  assert (Hreg : regular nn (natmat M) /\ regular rz (fun i j => natmat M (rs + i)%nat (rs + j)%nat)).
  { unfold solvable in Hsol. fold n nn in Hsol. destruct (req_pds r).
    - split; apply posdef_regular; [exact Hsol|]. apply (posdef_block nn); [unfold rs, rz, nn; lia|exact Hsol].
    - destruct Hsol as [H1 H2]. split; [exact H1|]. eapply regular_ext; [|exact H2].
      intros i j Hi Hj. unfold natmat, rs. f_equal; lia. }
  assert (Hpd : req_pds r = true ->
     ((forall i j, (i < nn)%nat -> (j < nn)%nat -> natmat M i j = natmat M j i) /\ posdef nn (natmat M)) /\
     (forall i j, (i < rz)%nat -> (j < rz)%nat -> natmat M (rs + i)%nat (rs + j)%nat = natmat M (rs + j)%nat (rs + i)%nat) /\
      posdef rz (fun i j => natmat M (rs + i)%nat (rs + j)%nat)).
  { intros Hp. unfold solvable in Hsol. rewrite Hp in Hsol.
    split; split.
    - intros; unfold natmat; apply Hsym; exact Hp.
    - exact Hsol.
    - intros; unfold natmat; apply Hsym; exact Hp.
    - apply (posdef_block nn); [unfold rs, rz, nn; lia|exact Hsol]. }
  destruct Hreg as [HregM HregQ].
  destruct m' as [n' a|n' kl ku q|n' d l|n' k g l l1 l2 q d|n' kl ku g l q d|n' top bot g l q d];
    cbn [get_size] in Sz; subst n'; cbn [factory_shape shape_of] in Sh.
  - exact (leaf_oracle lapack lapackT (req_pds r) (Dense R n a) (natmat M) HL Sh G (fun H => proj1 (Hpd H)) HregM).
  - exact (leaf_oracle lapack lapackT (req_pds r) (Banded R n kl ku q) (natmat M) HL Sh G (fun H => proj1 (Hpd H)) HregM).
  - exact (leaf_oracle lapack lapackT (req_pds r) (Pds R n d l) (natmat M) HL Sh G (fun H => proj1 (Hpd H)) HregM).
  - destruct Sh as [Hk [Hst Hleaf]].
    pose proof W2 as W'. cbn [wf] in W'. destruct W' as [Hk' [Wq [Sq _]]].
    set (B := blocks_of n k g l l1 l2 d).
    assert (Enb : nb B = rz) by (unfold B, blocks_of, rz; cbn [nb]; lia).
    assert (Ekk : (nb B + kk B)%nat = nn) by (unfold B, blocks_of, nn; cbn [nb kk]; lia).
    assert (Oq : lapack_ok lapack lapackT (routine_of q) (Z.to_nat (n - k)) (elems q)).
    { rewrite <- Sq. apply (leaf_oracle lapack lapackT (req_pds r) q (fun i j => natmat M (rs + i)%nat (rs + j)%nat) HL Hleaf).
      - rewrite Sq. intros i j Hi Hj. unfold rs. rewrite Hst. simpl.
        rewrite <- G by (unfold nn; lia). rewrite val_get_corner by (try exact W2; lia).
        unfold represented, block. fold B. rewrite Enb.
        replace (Nat.ltb i rz) with true by (unfold rz; lia). replace (Nat.ltb j rz) with true by (unfold rz; lia). reflexivity.
      - rewrite Sq. replace (Z.to_nat (n - k)) with rz by (unfold rz; lia). intros H; exact (proj2 (Hpd H)).
      - rewrite Sq. replace (Z.to_nat (n - k)) with rz by (unfold rz; lia). exact HregQ. }
    cbn [oracle_ok]. split; [exact Oq|]. fold B.
    assert (Hreg : regular (kk B) (schur lapack FullLambda B q)).
    { apply regular_injective. apply (schur_regular FullLambda B (elems q)); [exact I| |].
      - unfold lap. rewrite Sq. exact (proj1 Oq).
      - apply regular_injective. rewrite Ekk. eapply regular_ext; [|exact HregM].
        intros i j Hi Hj. rewrite <- G by assumption. apply val_get_corner; [exact W2|exact Hi|exact Hj]. }
    destruct HL as [LG _]. destruct (LG _ _ Hreg) as [H1 H2].
    split; intros bb i Hi; [apply H1|apply H2]; exact Hi.
  - destruct Sh as [Hk [Hst Hleaf]].
    pose proof W2 as W'. cbn [wf] in W'. cbv zeta in W'. set (k := Z.max kl ku) in *.
    destruct W' as [Hk' [Hkl [Hku [Hn [Wq [Sq _]]]]]].
    set (B := blocks_of n k g l (k + 1) k d).
    assert (Enb : nb B = rz) by (unfold B, blocks_of, rz; cbn [nb]; lia).
    assert (Ekk : (nb B + kk B)%nat = nn) by (unfold B, blocks_of, nn; cbn [nb kk]; lia).
    assert (Oq : lapack_ok lapack lapackT (routine_of q) (Z.to_nat (n - k)) (elems q)).
    { rewrite <- Sq. apply (leaf_oracle lapack lapackT (req_pds r) q (fun i j => natmat M (rs + i)%nat (rs + j)%nat) HL Hleaf).
      - rewrite Sq. intros i j Hi Hj. unfold rs. rewrite Hst. simpl.
        rewrite <- G by (unfold nn; lia). rewrite val_get_periodic by (try exact W2; try exact C; lia).
        fold k. unfold represented, block. fold B. rewrite Enb.
        replace (Nat.ltb i rz) with true by (unfold rz; lia). replace (Nat.ltb j rz) with true by (unfold rz; lia). reflexivity.
      - rewrite Sq. replace (Z.to_nat (n - k)) with rz by (unfold rz; lia). intros H; exact (proj2 (Hpd H)).
      - rewrite Sq. replace (Z.to_nat (n - k)) with rz by (unfold rz; lia). exact HregQ. }
    cbn [oracle_ok]. fold k. split; [exact Oq|]. fold B.
    assert (Hreg : regular (kk B) (schur lapack PeriodicLambda B q)).
    { apply regular_injective. apply (schur_regular PeriodicLambda B (elems q)).
      - unfold B, blocks_of; cbn; lia.
      - unfold lap. rewrite Sq. exact (proj1 Oq).
      - apply regular_injective. rewrite Ekk. eapply regular_ext; [|exact HregM].
        intros i j Hi Hj. rewrite <- G by assumption. apply val_get_periodic; [exact W2|exact C|exact Hi|exact Hj]. }
    destruct HL as [LG _]. destruct (LG _ _ Hreg) as [H1 H2].
    split; intros bb i Hi; [apply H1|apply H2]; exact Hi.
  - destruct Sh as [Ht [Hk Hleaf]].
    pose proof W2 as W'. cbn [wf] in W'. cbv zeta in W'. set (k := top + bot) in *.
    destruct W' as [Ht' [Hb [Hk' [Wq [Sq _]]]]].
    set (B := blocks_of n k g l (n - k) k d).
    assert (Enb : nb B = rz) by (unfold B, blocks_of, rz; cbn [nb]; lia).
    assert (Ekk : (nb B + kk B)%nat = nn) by (unfold B, blocks_of, nn; cbn [nb kk]; lia).
    assert (Etop : Z.to_nat top = rs) by (unfold rs; lia).
    assert (Erz : Z.to_nat (n - k) = rz) by (unfold rz; lia).
    assert (Etc : forall i, (i < rz)%nat -> to_corner rz rs (rs + i) = i).
    { intros i Hi. unfold to_corner. replace (Nat.ltb (rs + i) rs) with false by lia.
      replace (Nat.ltb (rs + i) (rs + rz)) with true by lia. lia. }
    assert (Hcorner : forall i j, (i < nn)%nat -> (j < nn)%nat ->
       natmat M i j = represented FullLambda B (elems q) (to_corner rz rs i) (to_corner rz rs j)).
    { intros i j Hi Hj. rewrite <- G by assumption. rewrite val_get_centre by assumption.
      fold k. rewrite Erz, Etop. reflexivity. }
    assert (Oq : lapack_ok lapack lapackT (routine_of q) (Z.to_nat (n - k)) (elems q)).
    { rewrite <- Sq. apply (leaf_oracle lapack lapackT (req_pds r) q (fun i j => natmat M (rs + i)%nat (rs + j)%nat) HL Hleaf).
      - rewrite Sq, Erz. intros i j Hi Hj. rewrite Hcorner by (unfold nn, rs, rz in *; lia).
        rewrite !Etc by assumption. unfold represented, block. rewrite Enb.
        replace (Nat.ltb i rz) with true by lia. replace (Nat.ltb j rz) with true by lia. reflexivity.
      - rewrite Sq, Erz. intros H; exact (proj2 (Hpd H)).
      - rewrite Sq, Erz. exact HregQ. }
    cbn [oracle_ok]. fold k. split; [exact Oq|]. fold B.
    assert (Hreg : regular (kk B) (schur lapack FullLambda B q)).
    { apply regular_injective. apply (schur_regular FullLambda B (elems q)); [exact I| |].
      - unfold lap. rewrite Sq. exact (proj1 Oq).
      - rewrite Ekk. intros x Hx.
        assert (Enn : nn = (rs + rz + Z.to_nat bot)%nat) by (unfold nn, rs, rz; lia).
        assert (Hy : forall i, (i < nn)%nat -> x (to_corner rz rs i) = 0%R).
        { apply (HregM (fun i => x (to_corner rz rs i))). intros i Hi.
          assert (Hib : (to_corner rz rs i < nn)%nat).
          { rewrite Enn. apply to_corner_bound. lia. }
          rewrite <- (Hx _ Hib). unfold mulv.
          rewrite (Rsum_ext nn _ (fun j => (fun p => represented FullLambda B (elems q) (to_corner rz rs i) p * x p)%R (to_corner rz rs j))).
          2:{ intros j Hj. rewrite Hcorner by assumption. reflexivity. }
          rewrite Enn. apply (Rsum_rotate rz rs (Z.to_nat bot) (fun p => represented FullLambda B (elems q) (to_corner rz rs i) p * x p)%R). }
        intros p Hp.
        destruct (Nat.ltb p rz) eqn:Ep.
        + rewrite <- (Etc p) by lia. apply Hy. lia.
        + destruct (Nat.ltb p (rs + rz)) eqn:Ep2.
          * replace p with (to_corner rz rs (p - rz)); [apply Hy; lia|].
            unfold to_corner. replace (Nat.ltb (p - rz) rs) with true by lia. lia.
          * replace p with (to_corner rz rs p); [apply Hy; lia|].
            unfold to_corner. replace (Nat.ltb p rs) with false by lia.
            rewrite Ep2. reflexivity. }
    destruct HL as [LG _]. destruct (LG _ _ Hreg) as [H1 H2].
    split; intros bb i Hi; [apply H1|apply H2]; exact Hi.
Qed.

Theorem factory_solves_regular lapack lapackT r M h m m' :
  lapack_correct lapack lapackT ->
  admissible r -> fits 0%R r M -> lists_elements 0%R (req_n r) M h -> no_overlap r ->
  solvable r M ->
  make 0%R r = Ok m -> set_all R tinyR m h = Ok m' ->
  forall swap b,
    (exists x, msolve lapack m' swap b = Ok x /\
               is_solution (Z.to_nat (req_n r)) (natmat M) x b) /\
    (exists x, msolveT lapack lapackT m' swap b = Ok x /\
               is_solution (Z.to_nat (req_n r)) (transp (natmat M)) x b).
Proof.
  intros HL Ha Hf Hl Hno Hsol Em Em' swap b.
  destruct (factory_legal r M h m m' Ha Hf Hl Em Em') as [Hlegal Hget].
  eapply factory_solves_regular_gen; eauto. exact (proj1 Hf).
Qed.
