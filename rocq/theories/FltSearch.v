(** The search of the closest break point in binary64. *)
From Coq Require Import Lia Lra ZArith Reals List.
From Flocq Require Import Core IEEE754.BinarySingleNaN.
From Verif Require Import FltSpec FltBase EdgeFloat FltMain FltWrap.
Import ListNotations.
Open Scope R_scope.

Lemma coordinate_ok knots i x : nth_error knots i = Some x -> coordinate knots (Z.of_nat i) = Ok x.
Proof.
  intros H. unfold coordinate, rd. replace (Z.of_nat i <? 0)%Z with false by (symmetry; apply Z.ltb_ge; lia).
  rewrite Nat2Z.id, H. reflexivity.
Qed.
Lemma nth_some {A} (l : list A) i : (i < length l)%nat -> exists x, nth_error l i = Some x.
Proof. intros H. destruct (nth_error l i) eqn:E; [eauto|]. apply nth_error_None in E. lia. Qed.
Lemma knot_num knots i x : Forall is_num knots -> nth_error knots i = Some x -> is_num x.
Proof. intros F H. apply nth_error_In in H. rewrite Forall_forall in F. now apply F. Qed.
Lemma knot_le knots i j x y : break_points knots -> (i <= j)%nat -> nth_error knots i = Some x -> nth_error knots j = Some y -> num x <= num y.
Proof.
  intros (_ & _ & B) H X Y. destruct (Nat.eq_dec i j) as [->|N]; [assert (x = y) by congruence; subst; lra|].
  apply Rlt_le. apply (B i j); try assumption. lia.
Qed.

Section Search.
  Variables (knots : list F64) (x : F64).
  Hypotheses (B : break_points knots) (X : is_num x).

  (** the knots at [first] and [last] enclose the coordinate *)
  Lemma search_ok : forall n fuel (fi la : nat) a b, (la - fi <= n)%nat -> (n <= fuel)%nat -> (fi < la < length knots)%nat ->
    nth_error knots fi = Some a -> nth_error knots la = Some b -> num a <= num x <= num b ->
    exists i, search_f64 fuel knots x (Z.of_nat fi) (Z.of_nat la) (Z.of_nat fi + Z.quot (Z.of_nat la - Z.of_nat fi) 2) = Ok (Some (Z.of_nat i)) /\ cell_of knots x i.
  Proof.
    induction n as [|n IH]; intros fuel fi la a b N F R A1 B1 C; [lia|]. destruct B as (BL & BN & BI).
    set (e := (fi + (la - fi) / 2)%nat).
    assert (E : (Z.of_nat fi + Z.quot (Z.of_nat la - Z.of_nat fi) 2)%Z = Z.of_nat e).
    { unfold e. rewrite Nat2Z.inj_add, Nat2Z.inj_div, Nat2Z.inj_sub by lia. rewrite Z.quot_div_nonneg by lia. reflexivity. }
    assert (D : ((la - fi) / 2 < la - fi)%nat) by (apply Nat.div_lt; lia).
    rewrite E. destruct (nth_some knots e) as [lo L]; [unfold e; lia|]. destruct (nth_some knots (e + 1)) as [hi Hh]; [unfold e; lia|].
    assert (NL : is_num lo) by now apply (knot_num knots e). assert (NH : is_num hi) by now apply (knot_num knots (e + 1)).
    assert (STEP : forall f, search_f64 f knots x (Z.of_nat fi) (Z.of_nat la) (Z.of_nat e) =
      if (Bltb x lo || Bltb hi x)%bool then match f with O => Ok None | S f =>
        let '(first, last) := if Bltb x lo then (Z.of_nat fi, Z.of_nat e) else (Z.of_nat e, Z.of_nat la) in
        search_f64 f knots x first last (first + Z.quot (last - first) 2)%Z end else Ok (Some (Z.of_nat e))).
    { intros f. destruct f; cbn [search_f64]; rewrite (coordinate_ok _ _ _ L); replace (Z.of_nat e + 1)%Z with (Z.of_nat (e + 1)) by lia;
        rewrite (coordinate_ok _ _ _ Hh); reflexivity. }
    rewrite STEP. destruct (Bltb x lo) eqn:E1; cbn [orb].
    - destruct fuel as [|fuel]; [lia|]. apply ltb_num in E1; [|assumption..].
      assert (e <> fi). { intros Q. rewrite Q in L. assert (lo = a) by congruence. subst lo. lra. }
      apply (IH fuel fi e a lo); try assumption; unfold e in *; try lia. lra.
    - apply ltb_false in E1; [|assumption..]. destruct (Bltb hi x) eqn:E2.
      + destruct fuel as [|fuel]; [lia|]. apply ltb_num in E2; [|assumption..].
        assert (e + 1 <> la)%nat. { intros Q. rewrite Q in Hh. assert (hi = b) by congruence. subst hi. lra. }
        assert (2 <= la - fi)%nat by (unfold e in *; lia).
        assert (1 <= (la - fi) / 2)%nat by (apply Nat.div_le_lower_bound; lia).
        apply (IH fuel e la lo b); try assumption; unfold e in *; try lia. lra.
      + apply ltb_false in E2; [|assumption..]. exists e. split; [reflexivity|]. exists lo, hi. auto.
  Qed.

  (** a coordinate below the first knot: the loop does not end *)
  Lemma search_below a : nth_error knots 0 = Some a -> num x < num a -> forall fuel (la : nat), (1 <= la < length knots)%nat \/ (la = 0)%nat ->
    search_f64 fuel knots x 0 (Z.of_nat la) (0 + Z.quot (Z.of_nat la - 0) 2) = Ok None.
  Proof.
    intros A0 C. induction fuel as [|fuel IH]; intros la R; destruct B as (BL & BN & BI);
      set (e := (la / 2)%nat); assert (E : (0 + Z.quot (Z.of_nat la - 0) 2)%Z = Z.of_nat e) by
        (unfold e; rewrite Nat2Z.inj_div, Z.add_0_l, Z.sub_0_r, Z.quot_div_nonneg by lia; reflexivity);
      assert (D : (e + 1 < length knots)%nat) by (destruct R as [R|R]; [assert (e < la)%nat by (apply Nat.div_lt; lia); lia|unfold e; rewrite R; cbn; lia]);
      destruct (nth_some knots e) as [lo L]; try lia; destruct (nth_some knots (e + 1)) as [hi Hh]; try lia;
      rewrite E; cbn [search_f64]; rewrite (coordinate_ok _ _ _ L); replace (Z.of_nat e + 1)%Z with (Z.of_nat (e + 1)) by lia;
      rewrite (coordinate_ok _ _ _ Hh); cbn [bind];
      (assert (K : Bltb x lo = true) by
        (apply ltb_num; [exact X|now apply (knot_num knots e)|]; pose proof (knot_le knots 0 e a lo B (Nat.le_0_l _) A0 L); lra));
      rewrite K; cbn [orb]; [reflexivity|].
    apply IH. destruct (Nat.eq_dec e 0); [now right|left; lia].
  Qed.
End Search.

Theorem closest_found asserts fuel deg knots x : break_points knots -> in_cells knots x -> (length knots <= fuel)%nat ->
  exists (i : nat) s, getclosest_f64 asserts fuel deg knots x = Ok (Some (Z.of_nat i + s)%Z) /\ cell_of knots x i /\
    (s = 0 \/ s = 1 /\ Z.even deg = true)%Z.
Proof.
  intros B (X & a & b & A1 & B1 & C) F. pose proof B as (BL & BN & BI).
  assert (NA : is_num a) by now apply (knot_num knots 0). assert (NB : is_num b) by now apply (knot_num knots (length knots - 1)).
  unfold getclosest_f64. rewrite (coordinate_ok knots 0 a A1 : coordinate knots 0 = Ok a). cbn [bind].
  replace (Z.of_nat (length knots) - 1)%Z with (Z.of_nat (length knots - 1)) by lia. rewrite (coordinate_ok _ _ _ B1). cbn [bind].
  assert (L1 : Bleb a x = true) by (apply leb_num; try assumption; lra). assert (L2 : Bleb x b = true) by (apply leb_num; try assumption; lra).
  assert (C1 : (if asserts then check (Bleb a x) else Ok tt) = Ok tt) by (destruct asserts; [rewrite L1|]; reflexivity).
  assert (C2 : (if asserts then check (Bleb x b) else Ok tt) = Ok tt) by (destruct asserts; [rewrite L2|]; reflexivity).
  rewrite C1, C2. cbn [bind].
  destruct (search_ok knots x B X (length knots - 1) fuel 0 (length knots - 1) a b) as (i & S1 & S2); try assumption; try lia.
  change (Z.of_nat 0) with 0%Z in S1. rewrite S1. cbn [bind]. pose proof S2 as (lo & hi & K1 & K2 & K3).
  rewrite (coordinate_ok _ _ _ K1). replace (Z.of_nat i + 1)%Z with (Z.of_nat (i + 1)) by lia. rewrite (coordinate_ok _ _ _ K2). cbn [bind].
  eexists i, _. split; [reflexivity|]. split; [exact S2|].
  destruct (Bltb _ _); [|left; lia]. rewrite Z.mul_1_r. rewrite <- Z.negb_odd, Zmod_odd. rewrite Z.odd_add. change (Z.odd 1) with true.
  destruct (Z.odd deg); [left|right]; split; reflexivity || reflexivity.
Qed.

Theorem closest_below knots x a fuel deg : break_points knots -> is_num x -> nth_error knots 0 = Some a -> num x < num a ->
  getclosest_f64 false fuel deg knots x = Ok None /\ getclosest_f64 true fuel deg knots x = AssertFail.
Proof.
  intros B X A C. pose proof B as (BL & BN & BI). assert (NA : is_num a) by now apply (knot_num knots 0).
  destruct (nth_some knots (length knots - 1)) as [b B1]; [lia|].
  unfold getclosest_f64. rewrite (coordinate_ok knots 0 a A : coordinate knots 0 = Ok a). cbn [bind].
  replace (Z.of_nat (length knots) - 1)%Z with (Z.of_nat (length knots - 1)) by lia. rewrite (coordinate_ok _ _ _ B1). cbn [bind].
  split.
  - assert (W : ((1 <= length knots - 1 < length knots) \/ length knots - 1 = 0)%nat) by lia. rewrite (search_below knots x B X a A C fuel (length knots - 1) W). reflexivity.
  - assert (E : Bleb a x = false) by (apply leb_false; assumption). rewrite E. reflexivity.
Qed.

(** a coordinate of the domain is not moved before the search *)
Theorem periodic_found asserts fuel deg knots x : break_points knots -> in_cells knots x -> (length knots <= fuel)%nat ->
  exists (i : nat) s, periodic_knot asserts fuel deg knots x = Ok (Some (Z.of_nat i + s)%Z) /\ cell_of knots x i /\
    (s = 0 \/ s = 1 /\ Z.even deg = true)%Z.
Proof.
  intros B D F. pose proof D as (X & a & b & A1 & B1 & C). pose proof B as (BL & BN & BI).
  assert (NA : is_num a) by now apply (knot_num knots 0). assert (NB : is_num b) by now apply (knot_num knots (length knots - 1)).
  unfold periodic_knot. rewrite (coordinate_ok knots 0 a A1 : coordinate knots 0 = Ok a). cbn [bind].
  replace (Z.of_nat (length knots) - 1)%Z with (Z.of_nat (length knots - 1)) by lia. rewrite (coordinate_ok _ _ _ B1). cbn [bind].
  unfold wrap_f64. assert (L1 : Bltb x a = false) by (apply ltb_false; try assumption; lra).
  assert (L2 : Bltb b x = false) by (apply ltb_false; try assumption; lra). rewrite L1, L2. cbn [orb].
  now apply closest_found.
Qed.

(** break points from 0 to a power of two: every coordinate is wrapped into the domain and its cell is found *)
Theorem periodic_found_pow2 asserts fuel deg knots x a b e : break_points knots -> is_num x ->
  nth_error knots 0 = Some a -> nth_error knots (length knots - 1) = Some b -> num a = 0 -> num b = bpow radix2 e -> (-900 <= e <= 50)%Z ->
  num x = 0 \/ bpow radix2 (-900) <= Rabs (num x) -> Rabs (num x) <= bpow radix2 52 * num b -> (length knots <= fuel)%nat ->
  exists (i : nat) s y k, periodic_knot asserts fuel deg knots x = Ok (Some (Z.of_nat i + s)%Z) /\ cell_of knots y i /\
    (s = 0 \/ s = 1 /\ Z.even deg = true)%Z /\ is_num y /\
    0 <= num x + IZR k * num b <= num b /\ num y = rnd (num x + IZR k * num b).
Proof.
  intros B X A1 B1 Z EB HE CT CB F. pose proof B as (BL & BN & BI).
  assert (NA : is_num a) by now apply (knot_num knots 0). assert (NB : is_num b) by now apply (knot_num knots (length knots - 1)).
  destruct (wrap_power_of_two a b x e NA NB X Z EB HE CT CB) as (W1 & W2 & k & W3 & W4).
  destruct (closest_found asserts fuel deg knots (wrap_f64 a b x) B) as (i & s & G1 & G2 & G3); [|exact F|].
  - split; [exact W1|]. exists a, b. rewrite Z. auto.
  - exists i, s, (wrap_f64 a b x), k. split; [|auto].
    unfold periodic_knot. rewrite (coordinate_ok knots 0 a A1 : coordinate knots 0 = Ok a). cbn [bind].
    replace (Z.of_nat (length knots) - 1)%Z with (Z.of_nat (length knots - 1)) by lia. rewrite (coordinate_ok _ _ _ B1). exact G1.
Qed.

(** ** Counterexample: break points 0, 0.5, 1.1 and the coordinate 7.7 *)
Definition knots_11 : list F64 := [b64 0; f_lit 1 (-1); f_11].
Lemma some_inj {A} (x y : A) : Some x = Some y -> x = y.
Proof. congruence. Qed.
Lemma knots_11_ok : break_points knots_11.
Proof.
  destruct (b64_ok 0) as [O1 O2]; [lia|]. change (num (b64 0) = 0) in O1.
  destruct (lit_ok 4953959590107546 (-52)) as [U1 U2]; [lia..|]. fold f_11 in U1, U2.
  destruct (lit_ok 1 (-1)) as [V1 V2]; [lia..|].
  replace (bpow radix2 (-52)) with (/ 4503599627370496) in U1 by reflexivity. replace (bpow radix2 (-1)) with (/ 2) in V1 by reflexivity.
  split; [cbn; lia|]. split; [repeat constructor; assumption|].
  intros i j x y H X Y. destruct j as [|[|[|j]]]; [lia| | |cbn in Y; destruct j; discriminate]; destruct i as [|[|[|i]]]; try lia;
    cbn [knots_11 nth_error] in X, Y; apply some_inj in X; apply some_inj in Y; rewrite <- X, <- Y, ?O1, ?U1, ?V1; lra.
Qed.
Theorem periodic_stuck fuel deg : periodic_knot false fuel deg knots_11 f_77 = Ok None /\ periodic_knot true fuel deg knots_11 f_77 = AssertFail.
Proof.
  destruct wrap_below as [W1 W2]. destruct (b64_ok 0) as [O1 O2]; [lia|]. change (num (b64 0) = 0) in O1.
  apply (closest_below knots_11 (wrap_f64 (b64 0) f_11 f_77) (b64 0) fuel deg knots_11_ok W1 eq_refl).
  rewrite W2, O1. replace (bpow radix2 (-53)) with (/ 9007199254740992) by reflexivity. lra.
Qed.
Theorem periodic_found_false : ~ (forall deg knots x, break_points knots -> is_num x ->
  exists fuel i, periodic_knot false fuel deg knots x = Ok (Some i)).
Proof.
  intros H. destruct (H 3%Z knots_11 f_77 knots_11_ok) as (fuel & i & E).
  - apply lit_ok; lia.
  - rewrite (proj1 (periodic_stuck fuel 3)) in E. discriminate.
Qed.
Theorem periodic_asserts_false : ~ (forall deg knots x, break_points knots -> is_num x ->
  forall fuel, periodic_knot true fuel deg knots x <> AssertFail).
Proof.
  intros H. apply (H 3%Z knots_11 f_77 knots_11_ok) with (fuel := 0%nat).
  - apply lit_ok; lia.
  - apply (proj2 (periodic_stuck 0 3)).
Qed.

Lemma ex_found : break_points knots_11 /\ in_cells knots_11 (f_lit 3 (-2)) /\
  periodic_knot true 3 3 knots_11 (f_lit 3 (-2)) = Ok (Some 1%Z) /\ periodic_knot true 3 2 knots_11 (f_lit 7 (-3)) = Ok (Some 2%Z) /\
  periodic_knot true 3 3 knots_11 (f_lit 5 (-1)) = Ok (Some 0%Z).
Proof.
  split; [exact knots_11_ok|]. split.
  - destruct (b64_ok 0) as [O1 O2]; [lia|]. change (num (b64 0) = 0) in O1.
    destruct (lit_ok 4953959590107546 (-52)) as [U1 U2]; [lia..|]. fold f_11 in U1, U2.
    destruct (lit_ok 3 (-2)) as [V1 V2]; [lia..|]. split; [exact V2|]. exists (b64 0), f_11. split; [reflexivity|]. split; [reflexivity|].
    rewrite O1, U1, V1. replace (bpow radix2 (-52)) with (/ 4503599627370496) by reflexivity. replace (bpow radix2 (-2)) with (/ 4) by reflexivity. lra.
  - repeat split; vm_compute; reflexivity.
Qed.
Definition knots_1 : list F64 := [b64 0; f_lit 1 (-1); b64 1].
Lemma ex_found_pow2 : break_points knots_1 /\ num (b64 1) = bpow radix2 0 /\
  periodic_knot true 3 3 knots_1 (f_lit (-5) (-2)) = Ok (Some 1%Z).
Proof.
  destruct (b64_ok 0) as [O1 O2]; [lia|]. change (num (b64 0) = 0) in O1. destruct (b64_ok 1) as [U1 U2]; [lia|]. change (num (b64 1) = 1) in U1.
  destruct (lit_ok 1 (-1)) as [V1 V2]; [lia..|]. replace (bpow radix2 (-1)) with (/ 2) in V1 by reflexivity.
  split; [|split; [rewrite U1; simpl; lra|vm_compute; reflexivity]].
  split; [cbn; lia|]. split; [repeat constructor; assumption|].
  intros i j x y H X Y. destruct j as [|[|[|j]]]; [lia| | |cbn in Y; destruct j; discriminate]; destruct i as [|[|[|i]]]; try lia;
    cbn [knots_1 nth_error] in X, Y; apply some_inj in X; apply some_inj in Y; rewrite <- X, <- Y, ?O1, ?U1, ?V1; lra.
Qed.
