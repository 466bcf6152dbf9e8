(** Proofs: the evaluation of the bases and of the interpolant (C22, C23, C46). *)
From Coq Require Import ZifyBool.
From Verif Require Import LagrangeSpec LagrangeProofs LagrangeStencilProofs RestrictProofs.
Open Scope R_scope.
Local Opaque Nat.div Nat.modulo.

Lemma eps_pos : 0 < dbl_epsilon.
Proof. unfold dbl_epsilon. apply Rinv_0_lt_compat, pow_lt. lra. Qed.

Lemma trunc_nonneg t : 0 <= t -> (0 <= trunc_int t)%Z /\ IZR (trunc_int t) <= t < IZR (trunc_int t) + 1.
Proof.
  intros H. unfold trunc_int. destruct (Rle_dec 0 t) as [H0|H0]; [|lra]. destruct (base_Int_part t) as [A B].
  split; [|lra]. apply Z.lt_succ_r. apply lt_IZR. rewrite succ_IZR. lra.
Qed.

Lemma nth_firstn_lt {A} (d : A) l : forall n i, (i < n)%nat -> nth i (firstn n l) d = nth i l d.
Proof. induction l as [|a l IH]; intros [|n] [|i] H; simpl; auto; try lia. apply IH. lia. Qed.
Lemma nth_skipn_add {A} (d : A) l : forall n i, nth i (skipn n l) d = nth (n + i) l d.
Proof. induction l as [|a l IH]; intros [|n] i; simpl; auto. destruct i; auto. Qed.

Section Eval.
  Variable b : basis.
  Hypothesis G : good b.
  Notation D := (b_degree b).
  Notation bp := (b_bp b).
  Definition stn (s : nat) : nat -> R := fun j => kn b (s + j).

  Lemma stn_distinct s : (s + D < length (b_knots b))%nat ->
    forall i j, (i <= D)%nat -> (j <= D)%nat -> stn s i = stn s j -> i = j.
  Proof.
    intros Hs i j Hi Hj E. unfold stn in E. destruct (Nat.lt_trichotomy i j) as [H|[H|H]]; auto; exfalso.
    - assert (kn b (s + i) < kn b (s + j)) by (apply (g_mono b G); lia). lra.
    - assert (kn b (s + j) < kn b (s + i)) by (apply (g_mono b G); lia). lra.
  Qed.

  Lemma stencil_ok s : (s + D < length (b_knots b))%nat ->
    exists nodes, stencil_knots b (Z.of_nat s) = Ok nodes /\ length nodes = S D /\
      forall i, (i <= D)%nat -> nth i nodes 0 = stn s i.
  Proof.
    intros Hs. unfold stencil_knots.
    destruct (Z.ltb_spec (Z.of_nat s) 0); [lia|].
    destruct (Z.ltb_spec (Z.of_nat (length (b_knots b))) (Z.of_nat s + Z.of_nat D + 1)); [lia|].
    cbn [orb]. eexists. split; [reflexivity|]. rewrite Nat2Z.id. split.
    - rewrite firstn_length, skipn_length. lia.
    - intros i Hi. rewrite nth_firstn_lt by lia. rewrite nth_skipn_add. reflexivity.
  Qed.

  Lemma nu_check xs : forall x k, (0 <= k)%Z ->
    (non_uniform_check_node xs x k = (-1)%Z /\ (forall i, (i < length xs)%nat -> dbl_epsilon * 4 <= Rabs (x - nth i xs 0))) \/
    (exists i, (i < length xs)%nat /\ non_uniform_check_node xs x k = (k + Z.of_nat i)%Z /\
       Rabs (x - nth i xs 0) < dbl_epsilon * 4 /\
       forall j, (j < i)%nat -> dbl_epsilon * 4 <= Rabs (x - nth j xs 0)).
  Proof.
    induction xs as [|y xs IH]; intros x k Hk; [left; split; [reflexivity|simpl; intros; lia]|].
    cbn [non_uniform_check_node]. destruct (Rlt_dec (Rabs (x - y)) (dbl_epsilon * 4)) as [H|H].
    - right. exists 0%nat. split; [simpl; lia|]. split; [lia|]. split; [exact H|intros; lia].
    - destruct (IH x (k + 1)%Z ltac:(lia)) as [[E F]|[i [Hi [E [F F2]]]]].
      + left. split; auto. intros [|i] Hi; cbn [nth length] in *; [lra|apply F; lia].
      + right. exists (S i). split; [simpl; lia|]. split; [rewrite E; lia|]. split; [exact F|].
        intros [|j] Hj; cbn [nth]; [lra|apply F2; lia].
  Qed.

  (** every knot further than the tolerance from its neighbours *)
  Lemma eval_basis_spec s x : (s + D < length (b_knots b))%nat -> kn b s <= x <= kn b (s + D) ->
    exists x2, evaluated_at b s x x2 /\
      ((forall i, (i <= D)%nat -> tolerance b < Rabs (x - kn b (s + i))) -> x2 = x) /\
      eval_basis b x (Z.of_nat s) = Ok (map (fun i => lagrange_poly D (stn s) i x2) (seq 0 (S D))).
  Proof.
    intros Hs Hx. destruct (stencil_ok s Hs) as [nodes [EN [LN HN]]].
    pose proof (stn_distinct s Hs) as DIS. pose proof eps_pos as EP.
    pose proof (g_deg b G) as HDG.
    unfold eval_basis. rewrite EN. cbn [bind]. rewrite length_ok by auto. cbn [bind].
    rewrite !HN by lia.
    assert (S0 : stn s 0 = kn b s) by (unfold stn; f_equal; lia). rewrite !S0.
    assert (EX : (if b_uniform b then if b_periodic b then if Rlt_dec x (kn b s) then x + period b else x else x else x) = x).
    { destruct (b_uniform b), (b_periodic b); auto. destruct (Rlt_dec x (kn b s)); [lra|auto]. }
    rewrite !EX. clear EX. change (stn s D) with (kn b (s + D)).
    destruct (Rle_dec (kn b s) x) as [_|]; [|lra]. destruct (Rle_dec x (kn b (s + D))) as [_|]; [|lra].
    destruct (b_uniform b) eqn:EU.
    - destruct (g_uni b G EU) as [HST HK]. set (st := b_step b) in *.
      unfold uniform_check_node. set (off := (x - kn b s) * (1 / st)).
      assert (EXO : x = kn b s + off * st) by (unfold off; field; lra).
      assert (KS : forall i, (i <= D)%nat -> kn b (s + i) = kn b s + INR i * st).
      { intros i Hi. rewrite (HK (s + i)%nat), (HK s) by lia. rewrite plus_INR. ring. }
      assert (OFF0 : 0 <= off).
      { unfold off. apply Rmult_le_pos; [lra|]. unfold Rdiv. rewrite Rmult_1_l. left. apply Rinv_0_lt_compat. auto. }
      assert (OFFD : off <= INR D).
      { apply Rmult_le_reg_r with st; auto. rewrite (KS D) in Hx by lia. lra. }
      destruct (trunc_nonneg off OFF0) as [T0 [T1 T2]]. set (ic := trunc_int off) in *.
      set (eps := dbl_epsilon * (INR D + 1)).
      assert (EPS : 0 < eps) by (unfold eps; apply Rmult_lt_0_compat; auto; pose proof (pos_INR D); lra).
      assert (ICD : (ic <= Z.of_nat D)%Z) by (apply le_IZR; rewrite <- INR_IZR_INZ; lra).
      assert (NODE : forall k, (0 <= k <= Z.of_nat D)%Z -> Rabs (off - IZR k) <= eps ->
          exists x2, evaluated_at b s x x2 /\
           ((forall i, (i <= D)%nat -> tolerance b < Rabs (x - kn b (s + i))) -> x2 = x) /\
           node_values D k = map (fun i => lagrange_poly D (stn s) i x2) (seq 0 (S D))).
      { intros k Hk HA. exists (kn b (s + Z.to_nat k)).
        assert (TOL : Rabs (x - kn b (s + Z.to_nat k)) <= tolerance b).
        { rewrite KS by lia. rewrite EXO at 1. unfold tolerance. rewrite EU. fold st.
          replace (kn b s + off * st - (kn b s + INR (Z.to_nat k) * st)) with ((off - INR (Z.to_nat k)) * st) by ring.
          rewrite INR_IZR_INZ, Z2Nat.id by lia. rewrite Rabs_mult, (Rabs_right st) by lra.
          apply Rmult_le_compat_r; [lra|exact HA]. }
        split; [|split].
        - right. exists (Z.to_nat k). split; [lia|]. split; [reflexivity|exact TOL].
        - intros C. specialize (C (Z.to_nat k) ltac:(lia)). lra.
        - rewrite <- (Z2Nat.id k) at 1 by lia. apply (node_values_spec D (stn s) DIS). lia. }
      assert (NEQ1 : forall z, (0 <= z)%Z -> (z =? -1)%Z = false) by (intros; lia).
      destruct (Rle_dec (off - IZR ic) eps) as [H1|H1].
      + destruct ((-1 <=? ic)%Z && (ic <=? Z.of_nat D)%Z) eqn:EA; [|lia]. cbn [bind].
        rewrite (NEQ1 ic) by auto.
        destruct (NODE ic ltac:(lia)) as [x2 [A [B C]]]; [apply Rabs_le; lra|]. exists x2. rewrite C. auto.
      + assert (ICL : (ic + 1 <= Z.of_nat D)%Z).
        { apply Zlt_le_succ. apply lt_IZR. rewrite <- INR_IZR_INZ. lra. }
        destruct (Rle_dec (- eps) (off - IZR ic - 1)) as [H2|H2].
        * destruct ((-1 <=? ic + 1)%Z && (ic + 1 <=? Z.of_nat D)%Z) eqn:EA; [|lia]. cbn [bind].
          rewrite (NEQ1 (ic + 1)%Z) by lia.
          destruct (NODE (ic + 1)%Z ltac:(lia)) as [x2 [A [B C]]];
            [rewrite plus_IZR; apply Rabs_le; lra|]. exists x2. rewrite C. auto.
        * assert (EA : ((-1 <=? -1) && (-1 <=? Z.of_nat D))%Z = true) by lia. rewrite EA. cbn [bind].
          exists x. split; [left; reflexivity|]. split; [auto|]. rewrite Z.eqb_refl. f_equal.
          change (uniform_weight D) with (node_weight D INR).
          rewrite (bary_values D INR (INR_distinct D)).
          -- apply map_ext_in. intros i Hi. apply in_seq in Hi.
             rewrite (lag_affine D (kn b s) st i off) by (try lra; lia). rewrite <- EXO.
             unfold lagrange_poly. apply prod_upto_ext. intros j Hj. unfold stn. rewrite !KS by lia. reflexivity.
          -- intros j Hj C. rewrite C in *. rewrite INR_IZR_INZ in *.
             assert (Z.of_nat j < ic + 1)%Z by (apply lt_IZR; rewrite plus_IZR; lra).
             assert (ic <= Z.of_nat j)%Z by (apply le_IZR; lra).
             assert (Z.of_nat j = ic) by lia. subst ic. rewrite H3 in H1. lra.
    - destruct (nu_check nodes x 0 ltac:(lia)) as [[E F]|[i [Hi [E [F F2]]]]].
      + rewrite E, Z.eqb_refl. exists x. split; [left; reflexivity|]. split; [auto|]. f_equal.
        rewrite <- (bary_values D (stn s) DIS).
        * unfold barycentric_values. apply map_ext_in. intros i Hi. apply in_seq in Hi.
          assert (NW : forall i, (i <= D)%nat -> node_weight D (fun i => nth i nodes 0) i = node_weight D (stn s) i).
          { intros k Hk. unfold node_weight. f_equal. rewrite !prod_skip_upto. apply prod_upto_ext. intros j Hj.
            rewrite !HN by lia. reflexivity. }
          rewrite NW, HN by lia. f_equal. apply Rsum_ext. intros j Hj. rewrite NW, HN by lia. reflexivity.
        * intros j Hj C. specialize (F j ltac:(lia)). rewrite HN in F by lia. rewrite <- C in F.
          rewrite Rminus_diag_eq, Rabs_R0 in F by auto. lra.
      + rewrite E. assert (EA : (0 + Z.of_nat i =? -1)%Z = false) by lia. rewrite EA.
        rewrite HN in F by lia. exists (kn b (s + i)).
        assert (TOL : Rabs (x - kn b (s + i)) <= tolerance b) by (unfold tolerance; rewrite EU; unfold stn in F; lra).
        split; [|split].
        * right. exists i. split; [lia|]. split; [reflexivity|exact TOL].
        * intros C. specialize (C i ltac:(lia)). lra.
        * f_equal. apply (node_values_spec D (stn s) DIS). lia.
  Qed.

  Lemma eval_sum_spec coef vals s n : (s + n <= length coef)%nat -> (n <= length vals)%nat ->
    eval_sum n coef vals (Z.of_nat s) = Ok (Rsum n (fun i => nth (s + i) coef 0 * nth i vals 0)).
  Proof.
    induction n; intros H1 H2; cbn [eval_sum Rsum]; [reflexivity|]. rewrite IHn by lia. cbn [bind].
    replace (Z.of_nat s + Z.of_nat n)%Z with (Z.of_nat (s + n)) by lia.
    unfold rd. destruct (Z.ltb_spec (Z.of_nat (s + n)) 0); [lia|]. destruct (Z.ltb_spec (Z.of_nat n) 0); [lia|].
    rewrite !Nat2Z.id. rewrite !(nth_error_nth' _ 0) by lia. reflexivity.
  Qed.

  Lemma map_seq_nth (f : nat -> R) n i : (i < n)%nat -> nth i (map f (seq 0 n)) 0 = f i.
  Proof.
    intros H. rewrite (nth_indep _ 0 (f 0%nat)) by (rewrite map_length, seq_length; auto).
    rewrite map_nth, seq_nth by auto. reflexivity.
  Qed.

  (** the interpolant inside the domain *)
  Lemma eval_no_bc_spec coef x : length coef = length (b_knots b) -> in_domain b x ->
    exists s x1 x2,
      (s + D < length (b_knots b))%nat /\ kn b s <= x1 <= kn b (s + D) /\
      (x1 = x \/ (b_periodic b = true /\ x1 = x + period b)) /\
      (b_periodic b = false -> (s = 0)%nat \/ (s = bp - 1 - D)%nat \/ centred b s x1) /\
      (b_periodic b = true -> centred b s x1) /\
      evaluated_at b s x1 x2 /\
      ((forall i, (i <= D)%nat -> tolerance b < Rabs (x1 - kn b (s + i))) -> x2 = x1) /\
      eval_no_bc b coef x = Ok (Rsum (S D) (fun i => nth (s + i) coef 0 * lagrange_poly D (stn s) i x2)).
  Proof.
    intros HL Hx. destruct (find_stencil_spec b G x Hx) as [x1 [s [E [H1 [H2 [H3 [H4 H5]]]]]]].
    destruct (eval_basis_spec s x1 H1 H2) as [x2 [A [B C]]].
    exists s, x1, x2. repeat (split; [assumption|]).
    unfold eval_no_bc. rewrite E. cbn [bind]. rewrite C. cbn [bind].
    rewrite eval_sum_spec by (rewrite ?map_length, ?seq_length; lia). f_equal. apply Rsum_ext.
    intros i Hi. rewrite map_seq_nth by auto. reflexivity.
  Qed.
  Lemma lagrange_eval_in lo up coef x : in_domain b x -> lagrange_eval b lo up coef x = eval_no_bc b coef x.
  Proof.
    intros [H1 H2]. unfold lagrange_eval. rewrite rmin_ok, rmax_ok by auto. cbn [bind].
    destruct (b_periodic b), (Rlt_dec x (kn b 0)), (Rlt_dec (kn b (bp - 1)) x); auto; lra.
  Qed.
  Lemma poly_sum p s x2 : (length p <= S D)%nat -> (s + D < length (b_knots b))%nat ->
    Rsum (S D) (fun i => peval p (kn b (s + i)) * lagrange_poly D (stn s) i x2) = peval p x2.
  Proof. intros Hp Hs. apply (lag_exact D (stn s) (stn_distinct s Hs) p x2 Hp). Qed.

  Lemma eval_poly lo up coef p x : b_periodic b = false -> length coef = length (b_knots b) ->
    (length p <= S D)%nat -> (forall i, (i < length (b_knots b))%nat -> nth i coef 0 = peval p (kn b i)) ->
    in_domain b x ->
    exists x2, lagrange_eval b lo up coef x = Ok (peval p x2) /\
      (x2 = x \/ exists i, (i < length (b_knots b))%nat /\ x2 = kn b i /\ Rabs (x - x2) <= tolerance b) /\
      ((forall i, (i < length (b_knots b))%nat -> tolerance b < Rabs (x - kn b i)) -> x2 = x).
  Proof.
    intros HP HL Hp HC Hx. rewrite lagrange_eval_in by auto.
    destruct (eval_no_bc_spec coef x HL Hx) as [s [x1 [x2 [H1 [H2 [H3 [_ [_ [H4 [H5 H6]]]]]]]]]].
    destruct H3 as [->|[H3 _]]; [|congruence]. exists x2. split; [|split].
    - rewrite H6. f_equal. rewrite <- (poly_sum p s x2 Hp H1). apply Rsum_ext. intros i Hi.
      rewrite HC by lia. reflexivity.
    - destruct H4 as [->|[i [Hi [-> H4]]]]; [left; auto|]. right. exists (s + i)%nat. split; [lia|auto].
    - intros C. apply H5. intros i Hi. apply C. lia.
  Qed.

  (** evaluation at a knot *)
  Lemma sep_knots i j : separated b -> (i < length (b_knots b))%nat -> (j < length (b_knots b))%nat ->
    Rabs (kn b i - kn b j) <= tolerance b -> i = j.
  Proof.
    intros HS Hi Hj HA. destruct (Nat.lt_trichotomy i j) as [H|[H|H]]; auto; exfalso.
    - specialize (HS i ltac:(lia)). assert (kn b (S i) <= kn b j) by (apply kn_le; [auto|lia]).
      assert (kn b i < kn b j) by (apply (g_mono b G); lia). rewrite Rabs_minus_sym in HA. rewrite Rabs_right in HA by lra. lra.
    - specialize (HS j ltac:(lia)). assert (kn b (S j) <= kn b i) by (apply kn_le; [auto|lia]).
      assert (kn b j < kn b i) by (apply (g_mono b G); lia). rewrite Rabs_right in HA by lra. lra.
  Qed.
  Lemma kn_lt_inv i j : (i < length (b_knots b))%nat -> (j < length (b_knots b))%nat -> kn b i <= kn b j -> (i <= j)%nat.
  Proof.
    intros Hi Hj H. destruct (le_lt_dec i j) as [|C]; auto. exfalso.
    assert (kn b j < kn b i) by (apply (g_mono b G); lia). lra.
  Qed.
  (** a stencil evaluated at one of the knots returns the coefficient of that knot *)
  Lemma at_knot coef s m x2 : separated b -> (s + D < length (b_knots b))%nat -> (m < length (b_knots b))%nat ->
    kn b s <= kn b m <= kn b (s + D) -> evaluated_at b s (kn b m) x2 ->
    Rsum (S D) (fun i => nth (s + i) coef 0 * lagrange_poly D (stn s) i x2) = nth m coef 0.
  Proof.
    intros HS Hs Hm [H1 H2] HE. apply kn_lt_inv in H1; [|lia|lia]. apply kn_lt_inv in H2; [|lia|lia].
    assert (E2 : x2 = kn b m).
    { destruct HE as [->|[i [Hi [-> HA]]]]; auto. apply sep_knots in HA; [congruence|auto|lia|lia]. }
    rewrite E2. replace (kn b m) with (stn s (m - s)) by (unfold stn; f_equal; lia).
    rewrite (Rsum_single (S D) (fun i => nth (s + i) coef 0 * lagrange_poly D (stn s) i (stn s (m - s))) (m - s)%nat);
      [|lia|intros i Hi N; rewrite (lag_delta D (stn s) (stn_distinct s Hs)) by lia;
       destruct (Nat.eqb_spec i (m - s)); [lia|ring]].
    rewrite (lag_delta D (stn s) (stn_distinct s Hs)) by lia. rewrite Nat.eqb_refl.
    replace (s + (m - s))%nat with m by lia. ring.
  Qed.
  Lemma eval_knot lo up coef j : separated b -> length coef = length (b_knots b) ->
    (b_periodic b = true -> forall i, (i <= D)%nat -> nth (bp - 1 + i) coef 0 = nth i coef 0) ->
    (j < bp)%nat -> lagrange_eval b lo up coef (kn b j) = Ok (nth j coef 0).
  Proof.
    intros HS HL HC Hj. pose proof (len_bp b G) as HLB. pose proof (g_bp b G) as HBP. pose proof (g_len b G) as GL.
    assert (Hx : in_domain b (kn b j)) by (split; apply kn_le; auto; lia).
    rewrite lagrange_eval_in by auto.
    destruct (eval_no_bc_spec coef (kn b j) HL Hx) as [s [x1 [x2 [H1 [H2 [H3 [_ [_ [H4 [H5 H6]]]]]]]]]].
    rewrite H6. f_equal. destruct H3 as [->|[EP ->]].
    - apply at_knot; auto; lia.
    - pose proof (g_per b G EP) as GP. rewrite EP in GL.
      assert (j <= D)%nat.
      { destruct (le_lt_dec j D) as [|C]; auto. exfalso.
        assert (kn b D < kn b j) by (apply (g_mono b G); lia).
        assert (kn b (s + D) <= kn b (bp - 1 + D)) by (apply kn_le; auto; lia). rewrite GP in H0 by lia. lra. }
      rewrite <- HC by auto. rewrite <- GP in H2, H4 by auto. apply at_knot; auto; lia.
  Qed.

  (** identity builder *)
  Lemma builder_ok vals : length vals = (if b_periodic b then bp - 1 else bp)%nat ->
    (b_periodic b = true -> (D + 2 <= bp)%nat) ->
    exists coef, identity_builder b vals = Ok coef /\ length coef = length (b_knots b) /\
      (forall i, (i < length vals)%nat -> nth i coef 0 = nth i vals 0) /\
      (b_periodic b = true -> forall i, (i <= D)%nat -> nth (bp - 1 + i) coef 0 = nth i coef 0).
  Proof.
    intros HL HB. unfold identity_builder. pose proof (g_len b G) as GL. pose proof (g_bp b G) as GB.
    rewrite HL, Nat.eqb_refl.
    destruct (b_periodic b) eqn:EP.
    - specialize (HB eq_refl). destruct (Nat.leb_spec (length (b_knots b) - (bp - 1)) (bp - 1)) as [H|H]; [|lia].
      eexists. split; [reflexivity|]. split; [|split].
      + rewrite app_length, firstn_length. lia.
      + intros i Hi. rewrite app_nth1 by lia. reflexivity.
      + intros _ i Hi. rewrite app_nth2 by lia. rewrite app_nth1 by lia. rewrite nth_firstn_lt by lia.
        f_equal. lia.
    - exists vals. split; [reflexivity|]. split; [lia|]. split; [auto|discriminate].
  Qed.

  (** folding of the coordinates of a periodic basis *)
  Definition fold (x : R) : R := x - IZR (Int_part ((x - kn b 0) / period b)) * period b.
  Lemma fold_range x : kn b 0 <= fold x < kn b (bp - 1).
  Proof.
    pose proof (period_pos b G) as PP. unfold fold. destruct (base_Int_part ((x - kn b 0) / period b)) as [A B].
    set (k := IZR (Int_part ((x - kn b 0) / period b))) in *. set (q := (x - kn b 0) / period b) in *.
    assert (E : x = kn b 0 + q * period b) by (unfold q; field; lra).
    assert (0 <= (q - k) * period b) by (apply Rmult_le_pos; lra).
    assert ((q - k) * period b < 1 * period b) by (apply Rmult_lt_compat_r; lra).
    unfold period at 2 in H0. rewrite E. unfold period in *. lra.
  Qed.
  Lemma fold_shift x k : fold (x + IZR k * period b) = fold x.
  Proof.
    pose proof (period_pos b G) as PP. unfold fold.
    replace ((x + IZR k * period b - kn b 0) / period b) with ((x - kn b 0) / period b + IZR k) by (field; lra).
    assert (E : Int_part ((x - kn b 0) / period b + IZR k) = (Int_part ((x - kn b 0) / period b) + k)%Z).
    { apply Int_part_unique. rewrite plus_IZR. destruct (base_Int_part ((x - kn b 0) / period b)). lra. }
    rewrite E, plus_IZR. ring.
  Qed.
  Lemma fold_in x : kn b 0 <= x < kn b (bp - 1) -> fold x = x.
  Proof.
    intros H. pose proof (period_pos b G) as PP. unfold fold.
    assert (E : Int_part ((x - kn b 0) / period b) = 0%Z).
    { apply Int_part_unique. simpl. split.
      - apply Rmult_le_pos; [lra|]. left. apply Rinv_0_lt_compat. auto.
      - apply Rmult_lt_reg_r with (period b); auto. unfold Rdiv. rewrite Rmult_assoc, Rinv_l by lra.
        unfold period. lra. }
    rewrite E. ring.
  Qed.
  Lemma eval_fold lo up coef x : b_periodic b = true -> separated b -> length coef = length (b_knots b) ->
    (forall i, (i <= D)%nat -> nth (bp - 1 + i) coef 0 = nth i coef 0) ->
    lagrange_eval b lo up coef x = lagrange_eval b lo up coef (fold x).
  Proof.
    intros EP HS HL HC. pose proof (fold_range x) as FR. pose proof (g_bp b G) as GB. pose proof (g_deg b G) as GD.
    rewrite (lagrange_eval_in lo up coef (fold x)) by (unfold in_domain; lra).
    unfold lagrange_eval at 1. rewrite rmin_ok, rmax_ok by auto. cbn [bind]. rewrite EP.
    change (kn b (bp - 1) - kn b 0) with (period b).
    fold (fold x). destruct (Rlt_dec x (kn b 0)) as [H|H]; [reflexivity|].
    destruct (Rlt_dec (kn b (bp - 1)) x) as [H2|H2]; [reflexivity|].
    destruct (Req_dec x (kn b (bp - 1))) as [->|N]; [|rewrite fold_in by lra; reflexivity].
    assert (F0 : fold (kn b (bp - 1)) = kn b 0).
    { replace (kn b (bp - 1)) with (kn b 0 + IZR 1 * period b) by (unfold period; ring).
      rewrite fold_shift. apply fold_in. assert (kn b 0 < kn b (bp - 1)) by (apply (g_mono b G); pose proof (len_bp b G); lia). lra. }
    rewrite F0.
    rewrite <- (lagrange_eval_in lo up), <- (lagrange_eval_in lo up) by
      (unfold in_domain; pose proof (period_pos b G); unfold period in *; lra).
    rewrite !eval_knot by (auto; try lia). f_equal. specialize (HC 0%nat ltac:(lia)). rewrite Nat.add_0_r in HC. exact HC.
  Qed.
  Lemma eval_periodic lo up coef x k : b_periodic b = true -> separated b -> length coef = length (b_knots b) ->
    (forall i, (i <= D)%nat -> nth (bp - 1 + i) coef 0 = nth i coef 0) ->
    lagrange_eval b lo up coef (x + IZR k * period b) = lagrange_eval b lo up coef x.
  Proof.
    intros. rewrite (eval_fold lo up coef (x + IZR k * period b)), (eval_fold lo up coef x), fold_shift by auto.
    reflexivity.
  Qed.
  Lemma eval_outside lo up coef x : b_periodic b = false ->
    (x < kn b 0 -> lagrange_eval b lo up coef x = extrapolate lo true b coef) /\
    (kn b (bp - 1) < x -> lagrange_eval b lo up coef x = extrapolate up false b coef).
  Proof.
    intros EP. unfold lagrange_eval. rewrite rmin_ok, rmax_ok by auto. cbn [bind]. rewrite EP.
    pose proof (period_pos b G) as PP. unfold period in PP.
    split; intros H; destruct (Rlt_dec x (kn b 0)); try lra; auto.
    destruct (Rlt_dec (kn b (bp - 1)) x); [auto|lra].
  Qed.
End Eval.

(** ** Statements of the property file *)
Lemma basis_sum_one b s x : initialised b ->
  (s + b_degree b < length (b_knots b))%nat -> kn b s <= x <= kn b (s + b_degree b) ->
  exists vals, eval_basis b x (Z.of_nat s) = Ok vals /\ length vals = S (b_degree b) /\
    Rsum (S (b_degree b)) (fun i => nth i vals 0) = 1.
Proof.
  intros HI Hs Hx. pose proof (initialised_good b HI) as G.
  destruct (eval_basis_spec b G s x Hs Hx) as [x2 [_ [_ E]]]. eexists. split; [exact E|].
  rewrite map_length, seq_length. split; auto.
  rewrite <- (lag_sum_one (b_degree b) (stn b s) (stn_distinct b G s Hs) x2).
  apply Rsum_ext. intros i Hi. apply map_seq_nth. auto.
Qed.
Lemma basis_kronecker b s k : initialised b -> separated b ->
  (s + b_degree b < length (b_knots b))%nat -> (k <= b_degree b)%nat ->
  exists vals, eval_basis b (kn b (s + k)) (Z.of_nat s) = Ok vals /\ length vals = S (b_degree b) /\
    forall i, (i <= b_degree b)%nat -> nth i vals 0 = if (i =? k)%nat then 1 else 0.
Proof.
  intros HI HS Hs Hk. pose proof (initialised_good b HI) as G.
  assert (Hx : kn b s <= kn b (s + k) <= kn b (s + b_degree b)) by (split; apply kn_le; auto; lia).
  destruct (eval_basis_spec b G s _ Hs Hx) as [x2 [EV [_ E]]]. eexists. split; [exact E|].
  rewrite map_length, seq_length. split; auto. intros i Hi. rewrite map_seq_nth by lia.
  assert (E2 : x2 = stn b s k).
  { unfold stn. destruct EV as [->|[j [Hj [-> HA]]]]; auto. apply sep_knots in HA; [f_equal; lia|auto|auto|lia|lia]. }
  rewrite E2. apply (lag_delta _ _ (stn_distinct b G s Hs)); lia.
Qed.
Lemma build_eval_poly b lo up vals p x : initialised b -> b_periodic b = false ->
  length vals = b_bp b -> (length p <= S (b_degree b))%nat ->
  (forall i, (i < b_bp b)%nat -> nth i vals 0 = peval p (kn b i)) -> in_domain b x ->
  exists coef x2, identity_builder b vals = Ok coef /\ lagrange_eval b lo up coef x = Ok (peval p x2) /\
    (x2 = x \/ exists i, (i < b_bp b)%nat /\ x2 = kn b i /\ Rabs (x - x2) <= tolerance b) /\
    ((forall i, (i < b_bp b)%nat -> tolerance b < Rabs (x - kn b i)) -> x2 = x).
Proof.
  intros HI EP HL Hp HV Hx. pose proof (initialised_good b HI) as G. pose proof (g_len b G) as GL. rewrite EP in GL.
  destruct (builder_ok b G vals) as [coef [E [LC [C1 _]]]]; [rewrite EP; auto|congruence|].
  destruct (eval_poly b G lo up coef p x EP LC Hp) as [x2 [A [B C]]]; auto.
  { intros i Hi. rewrite C1 by lia. apply HV. lia. }
  rewrite GL in *. exists coef, x2. auto.
Qed.
Lemma build_eval_knots b lo up vals : initialised b -> separated b ->
  length vals = (if b_periodic b then b_bp b - 1 else b_bp b)%nat ->
  (b_periodic b = true -> (b_degree b + 2 <= b_bp b)%nat) ->
  exists coef, identity_builder b vals = Ok coef /\
    (forall j, (j < length vals)%nat -> lagrange_eval b lo up coef (kn b j) = Ok (nth j vals 0)) /\
    (b_periodic b = true -> lagrange_eval b lo up coef (kn b (b_bp b - 1)) = Ok (nth 0 vals 0)).
Proof.
  intros HI HS HL HB. pose proof (initialised_good b HI) as G. pose proof (g_bp b G).
  destruct (builder_ok b G vals HL HB) as [coef [E [LC [C1 C2]]]]. exists coef. split; [exact E|]. split.
  - intros j Hj. rewrite <- C1 by auto. apply eval_knot; auto. destruct (b_periodic b); lia.
  - intros EP. rewrite eval_knot by (auto; lia). f_equal. rewrite <- C1 by (rewrite EP in HL; lia).
    rewrite <- (C2 EP 0%nat) by lia. f_equal. lia.
Qed.
Lemma closest_is_closest b x : initialised b -> in_domain b x ->
  exists c, get_closest b x = Ok (Z.of_nat c) /\ (c < b_bp b)%nat /\
    if Nat.even (b_degree b)
    then forall i, (i < b_bp b)%nat -> Rabs (x - kn b c) <= Rabs (x - kn b i)
    else kn b c <= x /\ ((c + 1 < b_bp b)%nat -> x <= kn b (c + 1)).
Proof.
  intros HI Hx. pose proof (initialised_good b HI) as G. pose proof (len_bp b G) as LB.
  destruct (closest_spec b G x Hx) as [c [E [Hc HN]]]. exists c. split; [exact E|]. split; [exact Hc|].
  unfold near in HN. destruct (Nat.even (b_degree b)).
  - destruct HN as [N1 N2]. intros i Hi. destruct (Nat.lt_trichotomy i c) as [H|[->|H]]; [|lra|].
    + destruct N1 as [N1|N1]; [lia|]. assert (kn b i <= kn b (c - 1)) by (apply kn_le; auto; lia).
      assert (kn b (c - 1) <= kn b c) by (apply kn_le; auto; lia).
      rewrite (Rabs_right (x - kn b i)) by lra. apply Rabs_le. lra.
    + destruct N2 as [N2|N2]; [lia|]. assert (kn b (c + 1) <= kn b i) by (apply kn_le; auto; lia).
      assert (kn b c <= kn b (c + 1)) by (apply kn_le; auto; lia).
      rewrite (Rabs_left1 (x - kn b i)) by lra. apply Rabs_le. lra.
  - destruct HN as [N1 N2]. split; auto. intros H. destruct N2; [lia|auto].
Qed.
Lemma evaluation b lo up coef x : initialised b -> length coef = length (b_knots b) ->
  in_domain b x ->
  exists s x1 x2, (s + b_degree b < length (b_knots b))%nat /\ kn b s <= x1 <= kn b (s + b_degree b) /\
    (x1 = x \/ (b_periodic b = true /\ x1 = x + period b)) /\ evaluated_at b s x1 x2 /\
    lagrange_eval b lo up coef x =
      Ok (Rsum (S (b_degree b)) (fun i => nth (s + i) coef 0 *
            lagrange_poly (b_degree b) (fun j => kn b (s + j)) i x2)).
Proof.
  intros HI HL Hx. pose proof (initialised_good b HI) as G. rewrite lagrange_eval_in by auto.
  destruct (eval_no_bc_spec b G coef x HL Hx) as [s [x1 [x2 [H1 [H2 [H3 [_ [_ [H4 [_ H6]]]]]]]]]].
  exists s, x1, x2. auto 10.
Qed.
Lemma build_eval_periodic b lo up vals x k : initialised b -> separated b -> b_periodic b = true ->
  length vals = (b_bp b - 1)%nat -> (b_degree b + 2 <= b_bp b)%nat ->
  exists coef y, identity_builder b vals = Ok coef /\ lagrange_eval b lo up coef x = Ok y /\
    lagrange_eval b lo up coef (x + IZR k * period b) = Ok y.
Proof.
  intros HI HS EP HL HB. pose proof (initialised_good b HI) as G.
  destruct (builder_ok b G vals) as [coef [E [LC [_ C2]]]]; [rewrite EP; auto|auto|].
  pose proof (fold_range b G x) as FR.
  destruct (eval_no_bc_spec b G coef (fold b x) LC ltac:(unfold in_domain; lra)) as [s [x1 [x2 [_ [_ [_ [_ [_ [_ [_ H6]]]]]]]]]].
  exists coef. eexists. split; [exact E|]. rewrite eval_periodic by auto. rewrite eval_fold by auto.
  rewrite lagrange_eval_in by (auto; unfold in_domain; lra). rewrite H6. auto.
Qed.
Lemma build_extrapolation b lo up vals x : initialised b -> b_periodic b = false ->
  length vals = b_bp b ->
  exists coef, identity_builder b vals = Ok coef /\
    (x < kn b 0 -> lagrange_eval b lo up coef x =
       Ok match lo with NullValue => 0 | Constant => nth 0 vals 0 end) /\
    (kn b (b_bp b - 1) < x -> lagrange_eval b lo up coef x =
       Ok match up with NullValue => 0 | Constant => nth (b_bp b - 1) vals 0 end).
Proof.
  intros HI EP HL. pose proof (initialised_good b HI) as G. pose proof (g_len b G) as GL. rewrite EP in GL.
  pose proof (g_bp b G) as GB.
  assert (E : identity_builder b vals = Ok vals).
  { unfold identity_builder. rewrite EP, HL, Nat.eqb_refl. reflexivity. }
  exists vals. split; [exact E|]. destruct (eval_outside b G lo up vals x EP) as [A B].
  assert (RD : forall i, (i < b_bp b)%nat -> rd vals (Z.of_nat i) = Ok (nth i vals 0)).
  { intros i Hi. unfold rd. destruct (Z.ltb_spec (Z.of_nat i) 0); [lia|]. rewrite Nat2Z.id.
    rewrite (nth_error_nth' _ 0) by lia. reflexivity. }
  split; intros H.
  - rewrite A by auto. destruct lo; [reflexivity|]. apply (RD 0%nat). lia.
  - rewrite B by auto. destruct up; [reflexivity|]. unfold extrapolate. rewrite GL.
    replace (Z.of_nat (b_bp b) - 1)%Z with (Z.of_nat (b_bp b - 1)) by lia. apply RD. lia.
Qed.

(** ** Concrete cases *)
Definition ex_uniform : basis :=
  {| b_uniform := true; b_periodic := true; b_degree := 3;
     b_knots := map (fun i => 0 + INR i * 1) (seq 0 9); b_bp := 6; b_step := 1 |}.
Definition ex_non_uniform : basis :=
  {| b_uniform := false; b_periodic := false; b_degree := 2;
     b_knots := [0; 1; 3; 4; 9]; b_bp := 5; b_step := 0 |}.
Lemma eps_small : dbl_epsilon < / 100.
Proof.
  unfold dbl_epsilon. apply Rinv_lt_contravar; [apply Rmult_lt_0_compat; [lra|apply pow_lt; lra]|].
  assert (100 < 2 ^ 7) by (simpl; lra). assert (2 ^ 7 <= 2 ^ 52) by (apply Rle_pow; [lra|lia]). lra.
Qed.
Lemma example_uniform : exists b, uniform_basis true 3 0 1 6 = Ok b /\ initialised b /\ separated b.
Proof.
  exists ex_uniform. split; [reflexivity|]. pose proof eps_small. pose proof eps_pos. split.
  - split; [simpl; lia|]. left. exists true, 0, 1, 6%nat. split; [lra|reflexivity].
  - intros i Hi. unfold tolerance, kn, ex_uniform in *.
    cbn [b_uniform b_degree b_step b_knots] in *. rewrite map_length, seq_length in Hi.
    rewrite !(map_seq_nth (fun i => 0 + INR i * 1)) by lia. rewrite (S_INR i). replace (INR 3) with 3 by (simpl; ring). lra.
Qed.
Lemma example_non_uniform : exists b, non_uniform_basis false 2 [0; 1; 3; 4; 9] 0 5 = Ok b /\
  initialised b /\ separated b /\ in_domain b 2.
Proof.
  exists ex_non_uniform. split; [reflexivity|]. pose proof eps_small. pose proof eps_pos. split; [|split].
  - split; [simpl; lia|]. right. exists false, [0; 1; 3; 4; 9]. split; [|reflexivity].
    intros i j Hij. simpl in Hij.
    do 5 (destruct i as [|i]; [do 5 (destruct j as [|j]; [simpl; lra || lia|]); lia|]). lia.
  - intros i Hi. unfold tolerance, kn, ex_non_uniform in *. cbn [b_uniform b_degree b_step b_knots length] in *.
    do 4 (destruct i as [|i]; [simpl; lra|]). lia.
  - unfold in_domain, kn. simpl. lra.
Qed.
Lemma smallest_periodic : exists b vals, initialised b /\ b_periodic b = true /\
  length vals = (b_bp b - 1)%nat /\ identity_builder b vals = Ub.
Proof.
  exists {| b_uniform := true; b_periodic := true; b_degree := 1;
     b_knots := map (fun i => 0 + INR i * 1) (seq 0 3); b_bp := 2; b_step := 1 |}, [5].
  split; [|split; [reflexivity|split; reflexivity]].
  split; [simpl; lia|]. left. exists true, 0, 1, 2%nat. split; [lra|reflexivity].
Qed.
Lemma sub_range : exists D pts fr n b, increasing pts /\ (fr + n <= length pts)%nat /\
  non_uniform_basis false D pts fr n = Ok b /\ kn b 0 <> nth fr pts 0.
Proof.
  exists 1%nat, [0; 1; 3; 4], 2%nat, 2%nat. eexists. split; [|split; [simpl; lia|split; [reflexivity|]]].
  - intros i j Hij. simpl in Hij.
    do 4 (destruct i as [|i]; [do 4 (destruct j as [|j]; [simpl; lra || lia|]); lia|]). lia.
  - unfold kn. simpl. lra.
Qed.
