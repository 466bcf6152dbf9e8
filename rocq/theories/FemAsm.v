(** Assembly of the finite element matrix. *)
From Coq Require Import Permutation ZifyBool FunctionalExtensionality.
From Verif Require Import Lib DerivModel QuadModel MatrixModel MatrixSpec MatrixProofs MatrixSolveModel MatrixLinkModel MatrixLinkProofs
  FemModel FemSpec.
Open Scope R_scope.

Lemma for_res_step {S} (P : nat -> S -> Prop) n (body : nat -> S -> res S) s :
  P O s -> (forall i t, (i < n)%nat -> P i t -> exists t', body i t = Ok t' /\ P (Datatypes.S i) t') ->
  exists s', for_res n body s = Ok s' /\ P n s'.
Proof.
  intros H0 Hs. induction n as [|n IH]; cbn [for_res]; [eauto|].
  destruct IH as [s' [E HP]]; [intros; apply Hs; auto; lia|]. rewrite E. cbn [bind]. apply Hs; [lia|exact HP].
Qed.

(** ** element-wise accumulation *)
Definition plain (s : shape) : Prop := forall i j i' j', alias s i j i' j' = same_pos i j i' j'.

Definition holds (m0 : Rmatrix) (V : Z -> Z -> R) (m : Rmatrix) : Prop :=
  wf R m /\ shape_of m = shape_of m0 /\
  (exists h, Forall (legal_write tinyR (shape_of m0)) h /\ set_all R tinyR m0 h = Ok m) /\
  (forall i j, inr R m0 i j -> get R 0 m i j = Ok (V i j)).

Lemma set_all_app h1 : forall (m : Rmatrix) h2 m1, set_all R tinyR m h1 = Ok m1 ->
  set_all R tinyR m (h1 ++ h2) = set_all R tinyR m1 h2.
Proof.
  induction h1 as [|[[i j] x] h1 IH]; intros m h2 m1 H; cbn [set_all app] in *.
  - injection H as <-. reflexivity.
  - destruct (set R tinyR m i j x) as [m'| | |]; cbn [bind] in *; try discriminate. apply IH; exact H.
Qed.

Lemma inr_shape (m m' : Rmatrix) i j : shape_of m' = shape_of m -> inr R m i j <-> inr R m' i j.
Proof. intros H. unfold inr. rewrite <- !order_shape, H. tauto. Qed.

Lemma holds_set m0 V m i j x : plain (shape_of m0) -> holds m0 V m -> inr R m0 i j ->
  stored (shape_of m0) i j = true ->
  exists m', set R tinyR m i j x = Ok m' /\
    holds m0 (fun i' j' => if same_pos i j i' j' then x else V i' j') m'.
Proof.
  intros Hp [W [Sh [[h [Hl Hh]] G]]] Hr Hst.
  destruct (set_step R 0 tinyR m W i j x) as [m' [E [W' [S' G']]]].
  { apply (inr_shape m0 m i j Sh). exact Hr. }
  { left. rewrite Sh. exact Hst. }
  exists m'. split; [exact E|]. split; [exact W'|]. split; [congruence|]. split.
  - exists (h ++ [(i, j, x)]). split.
    + apply Forall_app. split; [exact Hl|]. constructor; [|constructor].
      unfold legal_write. rewrite order_shape. destruct Hr as [H1 H2]. auto.
    + rewrite (set_all_app h m0 _ m Hh). cbn [set_all]. rewrite E. reflexivity.
  - intros i' j' Hr'. rewrite G' by (apply (inr_shape m0 m i' j' Sh); exact Hr').
    rewrite Sh, Hst, Hp. cbn [andb]. destruct (same_pos i j i' j'); [reflexivity|]. apply G; exact Hr'.
Qed.

Lemma holds_ext m0 V V' m : (forall i j, inr R m0 i j -> V i j = V' i j) -> holds m0 V m -> holds m0 V' m.
Proof.
  intros H [W [Sh [Hh G]]]. split; [exact W|]. split; [exact Sh|]. split; [exact Hh|].
  intros i j Hr. rewrite G by exact Hr. rewrite H by exact Hr. reflexivity.
Qed.

Lemma holds_add m0 V m i j v : plain (shape_of m0) -> holds m0 V m -> inr R m0 i j ->
  stored (shape_of m0) i j = true ->
  exists m', add_element m i j v = Ok m' /\
    holds m0 (fun i' j' => V i' j' + (if same_pos i j i' j' then v else 0)) m'.
Proof.
  intros Hp H Hr Hst. pose proof H as [W [Sh [Hh G]]]. unfold add_element. rewrite (G i j Hr). cbn [bind].
  destruct (holds_set m0 V m i j (V i j + v) Hp H Hr Hst) as [m' [E H']].
  exists m'. split; [exact E|]. eapply holds_ext; [|exact H']. intros i' j' Hr'. cbv beta.
  destruct (same_pos i j i' j') eqn:Es; [|lra]. unfold same_pos in Es. assert (i = i' /\ j = j') as [-> ->] by lia. reflexivity.
Qed.

(** a double loop of conditional additions *)
Lemma holds_add2 m0 V m nj nk (cond : nat -> nat -> bool) (I J : nat -> Z) (v : nat -> nat -> R) :
  plain (shape_of m0) -> holds m0 V m ->
  (forall j k, (j < nj)%nat -> (k < nk)%nat -> cond j k = true ->
     inr R m0 (I j) (J k) /\ stored (shape_of m0) (I j) (J k) = true) ->
  exists m', for_res nj (fun j m => for_res nk (fun k m =>
      if cond j k then add_element m (I j) (J k) (v j k) else Ok m) m) m = Ok m' /\
    holds m0 (fun i i' => V i i' + Rsum nj (fun j => Rsum nk (fun k =>
      if (cond j k && same_pos (I j) (J k) i i')%bool then v j k else 0))) m'.
Proof.
  intros Hp H Hc.
  apply (for_res_step (fun n m' => holds m0 (fun i i' => V i i' + Rsum n (fun j => Rsum nk (fun k =>
      if (cond j k && same_pos (I j) (J k) i i')%bool then v j k else 0))) m')).
  - eapply holds_ext; [|exact H]. intros; cbn [Rsum]. lra.
  - intros j m1 Hj H1.
    set (V1 := fun i i' => V i i' + Rsum j (fun j => Rsum nk (fun k =>
      if (cond j k && same_pos (I j) (J k) i i')%bool then v j k else 0))) in *.
    destruct (for_res_step (fun n m' => holds m0 (fun i i' => V1 i i' + Rsum n (fun k =>
      if (cond j k && same_pos (I j) (J k) i i')%bool then v j k else 0)) m') nk
      (fun k m => if cond j k then add_element m (I j) (J k) (v j k) else Ok m) m1) as [m2 [E2 H2]].
    + eapply holds_ext; [|exact H1]. intros; cbn [Rsum]. lra.
    + intros k m2 Hk H2. destruct (cond j k) eqn:Ec.
      * destruct (Hc j k Hj Hk Ec) as [Hr Hst].
        destruct (holds_add m0 _ m2 (I j) (J k) (v j k) Hp H2 Hr Hst) as [m3 [E3 H3]].
        exists m3. split; [exact E3|]. eapply holds_ext; [|exact H3]. intros i i' _. cbn [Rsum]. rewrite Ec. cbn [andb]. lra.
      * exists m2. split; [reflexivity|]. eapply holds_ext; [|exact H2]. intros i i' _. cbn [Rsum]. rewrite Ec. cbn [andb]. lra.
    + exists m2. split; [exact E2|]. eapply holds_ext; [|exact H2]. intros i i' _. unfold V1. cbn [Rsum]. lra.
Qed.

(** a loop over the quadrature points *)
Lemma holds_points m0 (body : R * R -> Rmatrix -> res Rmatrix) (F : R -> Z -> Z -> R) q :
  (forall x w V m, In (x, w) q -> holds m0 V m -> exists m', body (x, w) m = Ok m' /\
     holds m0 (fun i j => V i j + w * F x i j) m') ->
  forall V m, holds m0 V m -> exists m', for_points body q m = Ok m' /\
    holds m0 (fun i j => V i j + quad q (fun x => F x i j)) m'.
Proof.
  induction q as [|[x w] q IH]; intros Hb V m H; cbn [for_points quad].
  - exists m. split; [reflexivity|]. eapply holds_ext; [|exact H]. intros; lra.
  - destruct (Hb x w V m) as [m1 [E1 H1]]; [left; reflexivity|exact H|]. rewrite E1. cbn [bind].
    destruct (IH (fun x w V m Hin => Hb x w V m (or_intror Hin)) _ m1 H1) as [m2 [E2 H2]].
    exists m2. split; [exact E2|]. eapply holds_ext; [|exact H2]. intros; cbv beta. lra.
Qed.

Lemma Rsum_prod n m (f g : nat -> R) : Rsum n f * Rsum m g = Rsum n (fun i => Rsum m (fun j => f i * g j)).
Proof. rewrite <- Rsum_scal_r. apply Rsum_ext. intros. rewrite Rsum_scal. reflexivity. Qed.

Lemma plain_factory r m : make 0 r = Ok m -> req_pds r = false -> (forall n kl ku p, r <> ReqPeriodic n kl ku p) -> plain (shape_of m).
Proof.
  intros Hm Hp Hnp i j i' j'. pose proof (make_shape r m Hm) as Hs.
  assert (Hleaf : forall s, leaf_shape false s -> forall i j i' j', alias s i j i' j' = same_pos i j i' j').
  { intros s H; destruct s; cbn in H; try contradiction; try discriminate; reflexivity. }
  assert (Hsh : forall a b a' b' t, same_pos (a - t) (b - t) (a' - t) (b' - t) = same_pos a b a' b') by (intros; unfold same_pos; lia).
  destruct (shape_of m) as [n|n kl ku|n|n k q|n kl ku q|n t b q]; cbn [factory_shape] in Hs; rewrite ?Hp in Hs;
    try (apply Hleaf; exact Hs); cbn [alias].
  - destruct Hs as [_ [_ Hs]]. destruct (_ && _)%bool; [apply Hleaf; exact Hs|reflexivity].
  - destruct Hs as [_ [_ Hs]]. destruct (_ && _)%bool; [apply Hleaf; exact Hs|reflexivity].
  - destruct Hs as [_ [_ Hs]]. destruct (_ && _)%bool; [rewrite Hleaf by exact Hs; apply Hsh|reflexivity].
Qed.

(** a freshly made matrix *)
Lemma holds_fresh r : admissible r -> req_pds r = false -> (forall n kl ku p, r <> ReqPeriodic n kl ku p) ->
  exists m, make 0 r = Ok m /\ get_size R m = req_n r /\ plain (shape_of m) /\ holds m (fun _ _ => 0) m /\
    (forall M : Z -> Z -> R, fits 0 r M -> forall i j, inr R m i j -> M i j <> 0 -> stored (shape_of m) i j = true).
Proof.
  intros Ha Hp Hnp. destruct (make_ok 0 r Ha) as [m [E [W [F [S P]]]]].
  exists m. split; [exact E|]. split; [exact S|]. split; [eapply plain_factory; eauto|]. split.
  - split; [exact W|]. split; [reflexivity|]. split; [exists []; split; [constructor|reflexivity]|].
    intros i j Hr. apply F; exact Hr.
  - intros M HM i j Hr Hne. destruct (stored (shape_of m) i j) eqn:Es; [reflexivity|].
    exfalso. apply Hne. apply (proj1 (P M HM)); [exact Hr|exact Es].
Qed.

Lemma mod_index (b : basis) a j : (nbas b <> 0)%nat ->
  ((Z.of_nat j + Z.of_nat a) mod Z.of_nat (nbas b))%Z = Z.of_nat ((a + j) mod nbas b).
Proof. intros H. rewrite Nat2Z.inj_mod, Nat2Z.inj_add. f_equal. lia. Qed.

Lemma point_sum (b : basis) x w i i' : (nbas b <> 0)%nat ->
  Rsum (S (deg b)) (fun j => Rsum (S (deg b)) (fun k =>
    if same_pos (Z.of_nat ((fst (dv b x) + j) mod nbas b)) (Z.of_nat ((fst (dv b x) + k) mod nbas b)) i i'
    then dval b x j * dval b x k * w else 0)) =
  w * ((if (0 <=? i)%Z then dbfun b (Z.to_nat i) x else 0) * (if (0 <=? i')%Z then dbfun b (Z.to_nat i') x else 0)).
Proof.
  intros Hn.
  assert (E : forall i, (if (0 <=? i)%Z then dbfun b (Z.to_nat i) x else 0) =
     Rsum (S (deg b)) (fun j => if (Z.of_nat ((fst (dv b x) + j) mod nbas b) =? i)%Z then dval b x j else 0)).
  { intros k. destruct (0 <=? k)%Z eqn:Ek.
    - unfold dbfun, dval. apply Rsum_ext. intros j _.
      replace ((fst (dv b x) + j) mod nbas b =? Z.to_nat k)%nat with (Z.of_nat ((fst (dv b x) + j) mod nbas b) =? k)%Z; [reflexivity|].
      destruct (Z.of_nat ((fst (dv b x) + j) mod nbas b) =? k)%Z eqn:E; lia.
    - symmetry. apply Rsum_zero. intros j _.
      replace (Z.of_nat ((fst (dv b x) + j) mod nbas b) =? k)%Z with false by lia. reflexivity. }
  rewrite !E, Rsum_prod, <- Rsum_scal. apply Rsum_ext. intros j _. rewrite <- Rsum_scal. apply Rsum_ext. intros k _.
  unfold same_pos. destruct (_ =? i)%Z; destruct (_ =? i')%Z; cbn [andb]; lra.
Qed.

Lemma mod_cases n a j : (0 < n)%nat -> (a < n)%nat -> (j < n)%nat -> 
  ((a + j < n)%nat /\ (a + j) mod n = a + j)%nat \/ ((n <= a + j)%nat /\ ((a + j) mod n = a + j - n)%nat).
Proof.
  intros Hn Ha Hj. destruct (Nat.lt_ge_cases (a + j) n) as [H|H].
  - left. split; [exact H|]. apply Nat.mod_small; exact H.
  - right. split; [exact H|]. replace (a + j)%nat with ((a + j - n) + 1 * n)%nat at 1 by lia.
    rewrite Nat.mod_add by lia. apply Nat.mod_small. lia.
Qed.

(** the stiffness matrix and the whole matrix of the periodic problem *)
Definition stiff (b : basis) (q : list (R * R)) (i j : nat) : R := quad q (fun x => dbfun b i x * dbfun b j x).
Definition Kper (b : basis) (q : list (R * R)) (i j : Z) : R :=
  let n := Z.of_nat (nbas b) in
  if (i =? n)%Z then (if (j =? n)%Z then 0 else ints b (Z.to_nat j))
  else if (j =? n)%Z then ints b (Z.to_nat i) else stiff b q (Z.to_nat i) (Z.to_nat j).

Definition req_per (b : basis) : request :=
  ReqBlock (Z.of_nat (nbas b) + 1) (Z.of_nat (deg b) + 1) (Z.of_nat (deg b) + 1) false (Z.of_nat (deg b) + 1) 0.

Lemma build_periodic_ok b q : bspline_basis b -> per b = true ->
  exists m0 m h, make 0 (req_per b) = Ok m0 /\ set_all R tinyR m0 h = Ok m /\
    build_periodic_matrix b q = Ok m /\
    Forall (legal_write tinyR (shape_of m0)) h /\
    (forall i j, (0 <= i < Z.of_nat (nbas b) + 1)%Z -> (0 <= j < Z.of_nat (nbas b) + 1)%Z -> get R 0 m i j = Ok (Kper b q i j)).
Proof.
  intros [Hd [Hj _]] Hper.
  destruct (holds_fresh (req_per b)) as [m0 [Em [Sz [Hpl [H0 Hst]]]]]; [cbn; lia|reflexivity|discriminate|].
  cbn [req_per req_n] in Sz.
  set (n := Z.of_nat (nbas b)) in *. set (d := Z.of_nat (deg b)) in *.
  set (M := fun i j : Z => if ((0 <=? i) && (i <? n - d) && (0 <=? j) && (j <? n - d) && negb (band (d + 1) (d + 1) i j))%Z%bool then 0 else 1).
  assert (HM : fits 0 (req_per b) M).
  { split; [discriminate|]. cbn [req_per]. cbv zeta. unfold band_start. cbn [Z.eqb]. intros i j Hi Hj' Hb.
    change (band (d + 1) (d + 1) i j = false) in Hb. fold n d in Hi, Hj'. unfold M. rewrite Hb.
    replace (0 <=? i)%Z with true by lia. replace (i <? n - d)%Z with true by lia.
    replace (0 <=? j)%Z with true by lia. replace (j <? n - d)%Z with true by lia. reflexivity. }
  assert (Hst' : forall i j, (0 <= i < n + 1)%Z -> (0 <= j < n + 1)%Z ->
     ~ ((i < n - d)%Z /\ (j < n - d)%Z /\ (i - j > d + 1 \/ j - i > d + 1)%Z) -> stored (shape_of m0) i j = true).
  { intros i j Hi Hj' Hc. apply (Hst M HM); [split; rewrite Sz; assumption|]. unfold M, band.
    match goal with |- (if ?c then _ else _) <> _ => destruct c eqn:Ec; [exfalso|lra] end. lia. }
  (* the loop over the points *)
  destruct (holds_points m0 (add_point_periodic b)
    (fun x i j => (if (0 <=? i)%Z then dbfun b (Z.to_nat i) x else 0) * (if (0 <=? j)%Z then dbfun b (Z.to_nat j) x else 0)) q) with (V := fun _ _ : Z => 0) (m := m0)
    as [m1 [E1 H1]]; [|exact H0|].
  { intros x w V m _ HV. unfold add_point_periodic. cbn [fst snd]. fold n.
    assert (MI : forall j, ((Z.of_nat j + Z.of_nat (fst (dv b x))) mod n)%Z = Z.of_nat ((fst (dv b x) + j) mod nbas b))
      by (intros; apply mod_index; lia).
    assert (Nn : n = Z.of_nat (nbas b)) by reflexivity. assert (Nd : d = Z.of_nat (deg b)) by reflexivity.
    destruct (holds_add2 m0 V m (S (deg b)) (S (deg b)) (fun _ _ => true)
      (fun j => (Z.of_nat j + Z.of_nat (fst (dv b x))) mod n)%Z (fun j => (Z.of_nat j + Z.of_nat (fst (dv b x))) mod n)%Z
      (fun j k => dval b x j * dval b x k * w) Hpl HV) as [m' [E' H']].
    - intros j k Hjj Hkk _. rewrite !MI. destruct (Hj x) as [_ Hx]. rewrite Hper in Hx.
      destruct (mod_cases (nbas b) (fst (dv b x)) j) as [[? E]|[? E]]; [lia..| |];
      destruct (mod_cases (nbas b) (fst (dv b x)) k) as [[? E']|[? E']]; try lia; rewrite E, E'; unfold inr; rewrite Sz;
        (split; [lia|apply Hst'; lia]).
    - exists m'. split; [exact E'|]. eapply holds_ext; [|exact H']. intros i j _. cbv beta. f_equal.
      rewrite <- point_sum by lia. apply Rsum_ext. intros a _. apply Rsum_ext. intros c _. cbn [andb].
      rewrite !MI. reflexivity. }
  (* the integrals *)
  destruct (for_res_step (fun k m => holds m0 (fun i j =>
     if ((i =? n) && (0 <=? j) && (j <? Z.of_nat k))%Z%bool then ints b (Z.to_nat j)
     else if ((j =? n) && (0 <=? i) && (i <? Z.of_nat k))%Z%bool then ints b (Z.to_nat i)
     else quad q (fun x => (if (0 <=? i)%Z then dbfun b (Z.to_nat i) x else 0) * (if (0 <=? j)%Z then dbfun b (Z.to_nat j) x else 0))) m)
    (nbas b) (fun i m => let* m := set R tinyR m n (Z.of_nat i) (ints b i) in
    set R tinyR m (Z.of_nat i) n (ints b i)) m1) as [m2 [E2 H2]].
  - eapply holds_ext; [|exact H1]. intros i j _. cbv beta.
    replace ((i =? n) && (0 <=? j) && (j <? Z.of_nat 0))%Z%bool with false by lia.
    replace ((j =? n) && (0 <=? i) && (i <? Z.of_nat 0))%Z%bool with false by lia. lra.
  - intros k m Hk Hm.
    destruct (holds_set m0 _ m n (Z.of_nat k) (ints b k) Hpl Hm) as [m' [E' H']]; [unfold inr; rewrite Sz; unfold n; lia|apply Hst'; unfold n; lia|].
    rewrite E'. cbn [bind].
    destruct (holds_set m0 _ m' (Z.of_nat k) n (ints b k) Hpl H') as [m'' [E'' H'']]; [unfold inr; rewrite Sz; unfold n; lia|apply Hst'; unfold n; lia|].
    exists m''. split; [exact E''|]. eapply holds_ext; [|exact H'']. intros i j _. cbv beta. unfold same_pos.
    destruct ((Z.of_nat k =? i) && (n =? j))%Z%bool eqn:C1.
    + assert (i = Z.of_nat k /\ j = n) as [-> ->] by lia.
      replace ((Z.of_nat k =? n) && (0 <=? n) && (n <? Z.of_nat (S k)))%Z%bool with false by (unfold n; lia).
      replace ((n =? n) && (0 <=? Z.of_nat k) && (Z.of_nat k <? Z.of_nat (S k)))%Z%bool with true by lia.
      rewrite Nat2Z.id. reflexivity.
    + destruct ((n =? i) && (Z.of_nat k =? j))%Z%bool eqn:C2.
      * assert (j = Z.of_nat k /\ i = n) as [-> ->] by lia.
        replace ((n =? n) && (0 <=? Z.of_nat k) && (Z.of_nat k <? Z.of_nat (S k)))%Z%bool with true by lia.
        rewrite Nat2Z.id. reflexivity.
      * replace ((i =? n) && (0 <=? j) && (j <? Z.of_nat (S k)))%Z%bool with ((i =? n) && (0 <=? j) && (j <? Z.of_nat k))%Z%bool by lia.
        replace ((j =? n) && (0 <=? i) && (i <? Z.of_nat (S k)))%Z%bool with ((j =? n) && (0 <=? i) && (i <? Z.of_nat k))%Z%bool by lia.
        reflexivity.
  - pose proof H2 as [_ [_ [[h [Hl Hh]] G]]].
    exists m0, m2, h. split; [exact Em|]. split; [exact Hh|]. split.
    { unfold build_periodic_matrix. fold n d. cbn [make req_per] in Em. fold n d in Em. rewrite Em. cbn [bind].
      rewrite E1. cbn [bind]. exact E2. }
    split; [exact Hl|]. intros i j Hi Hj'. rewrite G by (split; rewrite Sz; assumption).
    f_equal. unfold Kper, stiff. cbv zeta. fold n.
    replace (0 <=? i)%Z with true by lia. replace (0 <=? j)%Z with true by lia.
    destruct (i =? n)%Z eqn:C1; cbn [andb].
    + destruct (j =? n)%Z eqn:C2; cbn [andb].
      * assert (i = n /\ j = n) as [-> ->] by lia. rewrite Z.ltb_irrefl.
        assert (Z0 : dbfun b (Z.to_nat n) = fun _ => 0).
        { apply functional_extensionality. intros x. unfold dbfun. apply Rsum_zero. intros k _.
          replace ((fst (dv b x) + k) mod nbas b =? Z.to_nat n)%nat with false; [reflexivity|].
          pose proof (Nat.mod_upper_bound (fst (dv b x) + k) (nbas b)). unfold n. lia. }
        rewrite Z0. clear. induction q as [|[x w] q IH]; cbn [quad]; [reflexivity|]. rewrite IH. lra.
      * change (Z.of_nat (nbas b)) with n. replace (j <? n)%Z with true by lia. reflexivity.
    + destruct (j =? n)%Z eqn:C2; cbn [andb]; [|reflexivity].
      change (Z.of_nat (nbas b)) with n. replace (i <? n)%Z with true by lia. reflexivity.
Qed.

(** the matrix of the problem with homogeneous Dirichlet conditions *)
Definition Kdir (b : basis) (q : list (R * R)) (i j : Z) : R := stiff b q (S (Z.to_nat i)) (S (Z.to_nat j)).
Definition req_dir (b : basis) : request :=
  ReqBanded (Z.of_nat (nbas b) - 2) (Z.of_nat (deg b)) (Z.of_nat (deg b)) false.

Lemma build_dirichlet_ok b q : bspline_basis b -> per b = false -> (2 < nbas b)%nat ->
  exists m0 m h, make 0 (req_dir b) = Ok m0 /\ set_all R tinyR m0 h = Ok m /\
    build_non_periodic_matrix b q = Ok m /\
    Forall (legal_write tinyR (shape_of m0)) h /\
    (forall i j, (0 <= i < Z.of_nat (nbas b) - 2)%Z -> (0 <= j < Z.of_nat (nbas b) - 2)%Z -> get R 0 m i j = Ok (Kdir b q i j)).
Proof.
  intros [Hd [Hj _]] Hper Hn2.
  destruct (holds_fresh (req_dir b)) as [m0 [Em [Sz [Hpl [H0 Hst]]]]]; [cbn; lia|reflexivity|discriminate|].
  cbn [req_dir req_n] in Sz.
  set (n := Z.of_nat (nbas b)) in *. set (d := Z.of_nat (deg b)) in *.
  assert (Nn : n = Z.of_nat (nbas b)) by reflexivity. assert (Nd : d = Z.of_nat (deg b)) by reflexivity.
  set (M := fun i j : Z => if band d d i j then 1 else 0).
  assert (HM : fits 0 (req_dir b) M).
  { split; [discriminate|]. cbn [req_dir]. intros i j Hb. change (band d d i j = false) in Hb. unfold M. rewrite Hb. reflexivity. }
  destruct (holds_points m0 (add_point_dirichlet b (n - 2))
    (fun x i j => dbfun b (S (Z.to_nat i)) x * dbfun b (S (Z.to_nat j)) x) q) with (V := fun _ _ : Z => 0) (m := m0)
    as [m1 [E1 H1]]; [|exact H0|].
  { intros x w V m _ HV. unfold add_point_dirichlet. cbn [fst snd]. fold n. destruct (Hj x) as [_ Hx]. rewrite Hper in Hx.
    assert (MI : forall j, (j < S (deg b))%nat -> ((Z.of_nat j + Z.of_nat (fst (dv b x))) mod n)%Z = Z.of_nat (fst (dv b x) + j)).
    { intros j Hjj. rewrite Z.mod_small; lia. }
    destruct (holds_add2 m0 V m (S (deg b)) (S (deg b)) (fun j k =>
        (negb (((Z.of_nat j + Z.of_nat (fst (dv b x))) mod n - 1) =? -1) && negb (((Z.of_nat j + Z.of_nat (fst (dv b x))) mod n - 1) =? n - 2)
         && negb (((Z.of_nat k + Z.of_nat (fst (dv b x))) mod n - 1) =? -1) && negb (((Z.of_nat k + Z.of_nat (fst (dv b x))) mod n - 1) =? n - 2))%Z%bool)
      (fun j => (Z.of_nat j + Z.of_nat (fst (dv b x))) mod n - 1)%Z (fun j => (Z.of_nat j + Z.of_nat (fst (dv b x))) mod n - 1)%Z
      (fun j k => dval b x j * dval b x k * w) Hpl HV) as [m' [E' H']].
    - intros j k Hjj Hkk. rewrite !MI by assumption. intros Hc.
      assert (Hr : inr R m0 (Z.of_nat (fst (dv b x) + j) - 1) (Z.of_nat (fst (dv b x) + k) - 1)) by (unfold inr; rewrite Sz; lia).
      split; [exact Hr|]. apply (Hst M HM); [exact Hr|]. unfold M, band.
      match goal with |- (if ?c then _ else _) <> _ => replace c with true by lia end. lra.
    - exists m'. split; [exact E'|]. eapply holds_ext; [|exact H']. intros i j [Hi Hj']. rewrite Sz in Hi, Hj'. cbv beta. f_equal.
      replace (S (Z.to_nat i)) with (Z.to_nat (i + 1)) by lia. replace (S (Z.to_nat j)) with (Z.to_nat (j + 1)) by lia.
      transitivity (w * ((if (0 <=? i + 1)%Z then dbfun b (Z.to_nat (i + 1)) x else 0) * (if (0 <=? j + 1)%Z then dbfun b (Z.to_nat (j + 1)) x else 0))).
      2:{ replace (0 <=? i + 1)%Z with true by lia. replace (0 <=? j + 1)%Z with true by lia. reflexivity. }
      rewrite <- point_sum by lia. apply Rsum_ext. intros a Ha. apply Rsum_ext. intros c Hc'.
      rewrite !MI by assumption. rewrite !Nat.mod_small by lia. unfold same_pos.
      match goal with |- (if ?u then _ else _) = (if ?v then _ else _) => replace u with v by lia end. reflexivity. }
  pose proof H1 as [_ [_ [[h [Hl Hh]] G]]].
  exists m0, m1, h. split; [exact Em|]. split; [exact Hh|]. split.
  { unfold build_non_periodic_matrix. fold n d. cbn [make req_dir] in Em. fold n d in Em. rewrite Em. cbn [bind]. exact E1. }
  split; [exact Hl|]. intros i j Hi Hj'. rewrite G by (split; rewrite Sz; assumption). f_equal. unfold Kdir, stiff. lra.
Qed.
