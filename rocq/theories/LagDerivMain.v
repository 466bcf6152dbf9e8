(** Evaluators: derivatives (C66) and tensor products (C67). *)
From Coq Require Import ZifyBool.
From Verif Require Import LagDerivSpec LagrangeProofs LagrangeStencilProofs LagrangeEvalProofs LagDerivPoly LagDerivComb LagDerivProofs RestrictProofs QuadProofs.
From Coq Require Import Lra Lia.
Open Scope R_scope.
Local Opaque Nat.div Nat.modulo.

Lemma lag_ext D xs ys i x : (i <= D)%nat -> (forall j, (j <= D)%nat -> xs j = ys j) -> lagrange_poly D xs i x = lagrange_poly D ys i x.
Proof. intros Hi H. unfold lagrange_poly. apply prod_upto_ext. intros j Hj. now rewrite !H by lia. Qed.
Lemma table_of_ext D nd xs ys x2 t : (forall j, (j <= D)%nat -> xs j = ys j) -> table_of D nd xs x2 t -> table_of D nd ys x2 t.
Proof.
  intros H T j TT Hj HT n Hn. apply T; auto. apply (taylor_ext (lagrange_poly D ys j)); auto.
  intros y. symmetry. now apply lag_ext.
Qed.
Lemma uniform_weights D (xs : nat -> R) a st : st <> 0 -> (forall j, (j <= D)%nat -> xs j = a + INR j * st) ->
  forall i, (i <= D)%nat -> uniform_weight D i = prod_upto D (fun _ => st) * node_weight D xs i.
Proof.
  intros Hs HX i Hi. unfold uniform_weight, node_weight. rewrite !prod_skip_upto.
  rewrite (prod_upto_ext (S D) (fun j => if (i =? j)%nat then 1 else xs i - xs j)
    (fun j => (if (i =? j)%nat then 1 else INR i - INR j) * (if (i =? j)%nat then 1 else st))).
  2:{ intros j Hj. rewrite !HX by lia. destruct (i =? j)%nat; ring. }
  rewrite prod_upto_mul. rewrite (prod_skip_ranks (fun _ => st) i D Hi).
  assert (prod_upto D (fun _ => st) <> 0) by (apply prod_upto_nonzero; auto).
  assert (prod_upto (S D) (fun j => if (i =? j)%nat then 1 else INR i - INR j) <> 0).
  { apply prod_upto_nonzero. intros j Hj. destruct (Nat.eqb_spec i j) as [E|E]; [lra|].
    intros C. apply E, INR_eq. lra. }
  field. auto.
Qed.

Section Eval.
  Variable b : basis.
  Hypothesis G : good b.
  Notation D := (b_degree b).
  Notation bp := (b_bp b).
  Notation stn := (stn b).

  Lemma derivs_spec garbage t0 s x nd : (s + D < length (b_knots b))%nat -> kn b s <= x <= kn b (s + D) ->
    (nd <= D)%nat -> (nd <= 20)%nat ->
    exists x2 t, evaluated_at b s x x2 /\
      ((forall i, (i <= D)%nat -> tolerance b < Rabs (x - kn b (s + i))) -> x2 = x) /\
      eval_basis_and_n_derivs garbage t0 b x (Z.of_nat s) nd = Ok t /\ table_of D nd (stn s) x2 t.
  Proof.
    intros Hs Hx Hnd H20. destruct (stencil_ok b s Hs) as [nodes [EN [LN HN]]].
    pose proof (stn_distinct b G s Hs) as DIS. pose proof eps_pos as EP.
    pose proof (g_deg b G) as HDG.
    assert (FU : 2 ^ D <= INR (2 ^ D)) by (right; rewrite pow_INR; reflexivity).
    assert (LG : length (map garbage (seq 0 (S D))) = S D) by (now rewrite map_length, seq_length).
    unfold eval_basis_and_n_derivs. rewrite EN. cbn [bind].
    remember (2 ^ D)%nat as fuel eqn:EF. clear EF. remember (map garbage (seq 0 (S D))) as gb eqn:EGB. clear EGB.
    assert (S0 : stn s 0 = kn b s) by (unfold LagrangeEvalProofs.stn; f_equal; lia).
    assert (X0 : nth 0 nodes 0 = kn b s) by (rewrite HN by lia; exact S0).
    assert (XD : nth D nodes 0 = kn b (s + D)) by (rewrite HN by lia; reflexivity).
    cbv zeta. rewrite !X0, !XD.
    destruct (Rle_dec (kn b s) x) as [_|]; [|lra]. destruct (Rle_dec x (kn b (s + D))) as [_|]; [|lra].
    destruct (Nat.leb_spec nd D); [|lia].
    set (xs := fun i => nth i nodes 0) in *.
    assert (HX : forall j, (j <= D)%nat -> xs j = stn s j) by (intros; unfold xs; now apply HN).
    assert (DISX : forall i j, (i <= D)%nat -> (j <= D)%nat -> xs i = xs j -> i = j).
    { intros i j Hi Hj E. rewrite !HX in E by auto. now apply DIS. }
    destruct (b_uniform b) eqn:EU.
    - destruct (g_uni b G EU) as [HST HK]. set (st := b_step b) in *.
      unfold uniform_check_node. set (off := (x - kn b s) * (1 / st)).
      assert (EXO : x = kn b s + off * st) by (unfold off; field; lra).
      assert (KS : forall i, (i <= D)%nat -> kn b (s + i) = kn b s + INR i * st).
      { intros i Hi. rewrite (HK (s + i)%nat), (HK s) by lia. rewrite plus_INR. ring. }
      assert (OFF0 : 0 <= off).
      { unfold off. apply Rmult_le_pos; [lra|]. unfold Rdiv. rewrite Rmult_1_l. left. apply Rinv_0_lt_compat. auto. }
      assert (OFFD : off <= INR D).
      { apply Rmult_le_reg_r with st; auto. rewrite (KS D) in Hx by lia. lra. }
      destruct (trunc_nonneg off OFF0) as [T0 [T1 T2]]. set (ic := trunc_int off) in *.
      set (eps := dbl_epsilon * (INR D + 1)).
      assert (EPS : 0 < eps) by (unfold eps; apply Rmult_lt_0_compat; auto; pose proof (pos_INR D); lra).
      assert (ICD : (ic <= Z.of_nat D)%Z) by (apply le_IZR; rewrite <- INR_IZR_INZ; lra).
      assert (NODE : forall k, (0 <= k <= Z.of_nat D)%Z -> Rabs (off - IZR k) <= eps ->
          exists x2 t, evaluated_at b s x x2 /\
           ((forall i, (i <= D)%nat -> tolerance b < Rabs (x - kn b (s + i))) -> x2 = x) /\
           Ok (node_table D nd (uniform_weight D) xs (Z.to_nat k) t0) = Ok t /\ table_of D nd (stn s) x2 t).
      { intros k Hk HA. exists (kn b (s + Z.to_nat k)). eexists.
        assert (TOL : Rabs (x - kn b (s + Z.to_nat k)) <= tolerance b).
        { rewrite KS by lia. rewrite EXO at 1. unfold tolerance. rewrite EU. fold st.
          replace (kn b s + off * st - (kn b s + INR (Z.to_nat k) * st)) with ((off - INR (Z.to_nat k)) * st) by ring.
          rewrite INR_IZR_INZ, Z2Nat.id by lia. rewrite Rabs_mult, (Rabs_right st) by lra.
          apply Rmult_le_compat_r; [lra|exact HA]. }
        split; [|split; [|split; [reflexivity|]]].
        - right. exists (Z.to_nat k). split; [lia|]. split; [reflexivity|exact TOL].
        - intros C. specialize (C (Z.to_nat k) ltac:(lia)). lra.
        - apply (table_of_ext D nd xs); auto. change (kn b (s + Z.to_nat k)) with (stn s (Z.to_nat k)).
          rewrite <- HX by lia.
          assert (CN : prod_upto D (fun _ => st) <> 0) by (apply prod_upto_nonzero; intros; lra).
          apply (node_spec D nd xs (uniform_weight D) (prod_upto D (fun _ => st))); auto; [|lia].
          apply (uniform_weights D xs (kn b s) st); [lra|]. intros j Hj. rewrite HX by auto. now apply KS. }
      assert (NEQ1 : forall z, (0 <= z)%Z -> (z =? -1)%Z = false) by (intros; lia).
      destruct (Rle_dec (off - IZR ic) eps) as [H1|H1].
      + destruct ((-1 <=? ic)%Z && (ic <=? Z.of_nat D)%Z) eqn:EA; [|lia]. cbn [bind].
        rewrite (NEQ1 ic) by auto. apply NODE; [lia|]. apply Rabs_le; lra.
      + assert (ICL : (ic + 1 <= Z.of_nat D)%Z).
        { apply Zlt_le_succ. apply lt_IZR. rewrite <- INR_IZR_INZ. lra. }
        destruct (Rle_dec (- eps) (off - IZR ic - 1)) as [H2|H2].
        * destruct ((-1 <=? ic + 1)%Z && (ic + 1 <=? Z.of_nat D)%Z) eqn:EA; [|lia]. cbn [bind].
          rewrite (NEQ1 (ic + 1)%Z) by lia. apply NODE; [lia|]. rewrite plus_IZR. apply Rabs_le; lra.
        * assert (EA : ((-1 <=? -1) && (-1 <=? Z.of_nat D))%Z = true) by lia. rewrite EA. cbn [bind]. rewrite Z.eqb_refl.
          assert (NI : forall j, (j <= D)%nat -> off <> INR j).
          { intros j Hj C. rewrite C in *. rewrite INR_IZR_INZ in *.
            assert (Z.of_nat j < ic + 1)%Z by (apply lt_IZR; rewrite plus_IZR; lra).
            assert (ic <= Z.of_nat j)%Z by (apply le_IZR; lra).
            assert (Z.of_nat j = ic) by lia. subst ic. rewrite H4 in H1. lra. }
          destruct (between_spec fuel D nd (stn s) x (fun c => st * (off - IZR c)) gb t0
             (barycentric_values D (uniform_weight D) INR off)) as (t & E & TB); auto.
          -- intros p Hp C. apply (NI p Hp). unfold LagrangeEvalProofs.stn in C. rewrite KS in C by auto.
             apply Rmult_eq_reg_r with st; lra.
          -- intros p Hp. rewrite <- INR_IZR_INZ. unfold LagrangeEvalProofs.stn. rewrite KS by auto. rewrite EXO at 1. ring.
          -- change (uniform_weight D) with (node_weight D INR).
             rewrite (bary_values D INR (INR_distinct D)) by auto.
             apply map_ext_in. intros i Hi. apply in_seq in Hi.
             rewrite (lag_affine D (kn b s) st i off) by (try lra; lia). rewrite <- EXO.
             unfold lagrange_poly. apply prod_upto_ext. intros j Hj. unfold LagrangeEvalProofs.stn. rewrite !KS by lia. reflexivity.
          -- exists x, t. split; [left; reflexivity|]. auto.
    - destruct (nu_check nodes x 0 ltac:(lia)) as [[E F]|[i [Hi [E [F F2]]]]].
      + rewrite E, Z.eqb_refl.
        assert (NI : forall j, (j <= D)%nat -> x <> xs j).
        { intros j Hj C. specialize (F j ltac:(lia)). change (nth j nodes 0) with (xs j) in F. rewrite <- C in F.
          rewrite Rminus_diag_eq, Rabs_R0 in F by auto. lra. }
        destruct (between_spec fuel D nd xs x (fun c => x - xs (Z.to_nat c)) gb t0
             (barycentric_values D (node_weight D xs) xs x)) as (t & E' & TB); auto.
        * intros p Hp. now rewrite Nat2Z.id.
        * now apply bary_values.
        * exists x, t. split; [left; reflexivity|]. split; [auto|]. split; [exact E'|]. now apply (table_of_ext D nd xs).
      + rewrite E. assert (EA : (0 + Z.of_nat i =? -1)%Z = false) by lia. rewrite EA.
        rewrite HN in F by lia. exists (kn b (s + i)). eexists.
        assert (TOL : Rabs (x - kn b (s + i)) <= tolerance b) by (unfold tolerance; rewrite EU; unfold LagrangeEvalProofs.stn in F; lra).
        split; [|split; [|split; [reflexivity|]]].
        * right. exists i. split; [lia|]. split; [reflexivity|exact TOL].
        * intros C. specialize (C i ltac:(lia)). lra.
        * apply (table_of_ext D nd xs); auto. change (kn b (s + i)) with (stn s i).
          rewrite <- HX by lia. replace (Z.to_nat (0 + Z.of_nat i)) with i by lia.
          apply (node_spec D nd xs (node_weight D xs) 1); [auto|apply R1_neq_R0|intros; ring|lia|auto].
  Qed.

  (** values of a basis row *)
  Lemma row_spec sc head o x s : (s + D < length (b_knots b))%nat -> kn b s <= x <= kn b (s + D) ->
    (order_of o <= D)%nat -> (order_of o <= 20)%nat -> (head = true -> o <> Some 0%nat) ->
    exists x2 v, evaluated_at b s x x2 /\
      ((forall i, (i <= D)%nat -> tolerance b < Rabs (x - kn b (s + i))) -> x2 = x) /\
      basis_row sc head b o x (Z.of_nat s) = Ok (map v (seq 0 (S D))) /\
      forall i, (i <= D)%nat -> exists g, nth_derivative (order_of o) (lagrange_poly D (stn s) i) g /\ v i = g x2.
  Proof.
    intros Hs Hx Ho H20 Hh. unfold basis_row. destruct (eval_basis_spec b G s x Hs Hx) as (x3 & A & B & C).
    rewrite C. cbn [bind]. destruct o as [n|].
    - cbn [order_of] in *.
      assert (EN : ((n <=? D) && (negb head || (0 <? n)))%nat = true).
      { destruct head; cbn [negb orb]; [|rewrite andb_true_r; apply Nat.leb_le; auto].
        assert (n <> 0)%nat by (intros ->; now apply Hh). lia. }
      rewrite EN. destruct (derivs_spec (sc_garbage sc) (sc_table sc) s x n Hs Hx Ho H20) as (x2 & t & A2 & B2 & C2 & T2).
      exists x2, (fun i => t i n). split; [exact A2|]. split; [exact B2|]. rewrite C2. cbn [bind]. split; [reflexivity|].
      intros i Hi. destruct (taylor_lag D (stn s) i x2 (stn_distinct b G s Hs) Hi) as [T HT].
      assert (ND := taylor_exists _ x2 _ T n HT).
      exists (fun y => ev (S D) (dseqs n T) (y - x2)). split; [exact ND|].
      rewrite (T2 i T Hi HT n) by lia. symmetry.
      exact (taylor_nth n (lagrange_poly D (stn s) i) (fun y => ev (S D) (dseqs n T) (y - x2)) x2 (S D) T HT ND).
    - exists x3, (fun i => lagrange_poly D (stn s) i x3). split; [exact A|]. split; [exact B|]. split; [reflexivity|].
      intros i Hi. exists (lagrange_poly D (stn s) i). split; [|reflexivity].
      exists (fun _ => lagrange_poly D (stn s) i). split; [auto|]. split; [intros; cbn in *; lia|auto].
  Qed.
  Lemma row_sum_spec (cf : Z -> res R) c v s : forall n, (n <= S D)%nat ->
    (forall i, (i < n)%nat -> cf (Z.of_nat (s + i)) = Ok (c (s + i)%nat)) ->
    row_sum n cf (map v (seq 0 (S D))) (Z.of_nat s) = Ok (Rsum n (fun i => c (s + i)%nat * v i)).
  Proof.
    induction n as [|n IH]; intros Hn H; cbn [row_sum Rsum]; [reflexivity|].
    rewrite IH by (try lia; intros; apply H; lia). cbn [bind].
    replace (Z.of_nat s + Z.of_nat n)%Z with (Z.of_nat (s + n)) by lia. rewrite H by lia. cbn [bind].
    unfold rd. destruct (Z.ltb_spec (Z.of_nat n) 0); [lia|]. rewrite Nat2Z.id.
    rewrite (nth_error_nth' _ 0) by (rewrite map_length, seq_length; lia). rewrite map_seq_nth by lia. reflexivity.
  Qed.
  Lemma eval1_spec sc o x : in_domain b x -> (order_of o <= D)%nat -> (order_of o <= 20)%nat ->
    exists sv x2, is_dim_value b o x sv x2 /\
      forall cf c, (forall i, (i < length (b_knots b))%nat -> cf (Z.of_nat i) = Ok (c i)) ->
        eval1 sc b o x cf = Ok (Rsum (S D) (fun i => snd sv i * c (fst sv + i)%nat)).
  Proof.
    intros Hx Ho H20. destruct (find_stencil_spec b G x Hx) as (x1 & s & E & H1 & H2 & H3 & _ & _).
    destruct (row_spec sc false o x1 s H1 H2 Ho H20 ltac:(discriminate)) as (x2 & v & A & B & C & V).
    exists (s, v), x2. split.
    - split; [exact H1|]. exists x1. auto.
    - intros cf c HC. unfold eval1. rewrite E. cbn [bind]. rewrite C. cbn [bind].
      rewrite (row_sum_spec cf c v s (S D)) by (try lia; intros; apply HC; lia).
      f_equal. apply Rsum_ext. intros; cbn; ring.
  Qed.
End Eval.

(** ** C66 *)
Lemma basis_derivatives b garbage t0 s x nd : initialised b ->
  (s + b_degree b < length (b_knots b))%nat -> kn b s <= x <= kn b (s + b_degree b) ->
  (nd <= b_degree b)%nat -> (nd <= 20)%nat ->
  exists x2 t, evaluated_at b s x x2 /\
    ((forall i, (i <= b_degree b)%nat -> tolerance b < Rabs (x - kn b (s + i))) -> x2 = x) /\
    eval_basis_and_n_derivs garbage t0 b x (Z.of_nat s) nd = Ok t /\
    forall j n, (j <= b_degree b)%nat -> (n <= nd)%nat -> forall g,
      nth_derivative n (lagrange_poly (b_degree b) (fun i => kn b (s + i)) j) g -> t j n = g x2.
Proof.
  intros HI Hs Hx H1 H2. pose proof (initialised_good b HI) as G.
  destruct (derivs_spec b G garbage t0 s x nd Hs Hx H1 H2) as (x2 & t & A & B & C & T).
  exists x2, t. split; [exact A|]. split; [exact B|]. split; [exact C|]. intros j n Hj Hn g Hg.
  destruct (taylor_lag (b_degree b) (stn b s) j x2 (stn_distinct b G s Hs) Hj) as [TT HT].
  rewrite (T j TT Hj HT n Hn). symmetry. now apply (taylor_nth n _ g x2 _ TT HT).
Qed.
Lemma lag_derivable b s j n : initialised b -> (s + b_degree b < length (b_knots b))%nat -> (j <= b_degree b)%nat ->
  exists g, nth_derivative n (lagrange_poly (b_degree b) (fun i => kn b (s + i)) j) g.
Proof.
  intros HI Hs Hj. pose proof (initialised_good b HI) as G.
  destruct (taylor_lag (b_degree b) (stn b s) j 0 (stn_distinct b G s Hs) Hj) as [TT HT].
  eexists. apply (taylor_exists _ 0 _ _ n HT).
Qed.
(** a linear combination of functions with Taylor expansions *)
Lemma taylor_family D xs n : (forall i j, (i <= D)%nat -> (j <= D)%nat -> xs i = xs j -> i = j) -> (n <= S D)%nat ->
  forall x, exists TT, forall i, (i < n)%nat -> taylor (lagrange_poly D xs i) x (S D) (TT i).
Proof.
  intros DIS. induction n as [|n IH]; intros Hn x; [exists (fun _ _ => 0); intros; lia|].
  destruct (IH ltac:(lia) x) as [TT H]. destruct (taylor_lag D xs n x DIS ltac:(lia)) as [T HT].
  exists (fun i => if (i =? n)%nat then T else TT i). intros i Hi. destruct (Nat.eqb_spec i n); [subst; auto|apply H; lia].
Qed.
Lemma combination D xs c n x2 (v : nat -> R) : (forall i j, (i <= D)%nat -> (j <= D)%nat -> xs i = xs j -> i = j) ->
  (forall i, (i <= D)%nat -> exists g, nth_derivative n (lagrange_poly D xs i) g /\ v i = g x2) ->
  forall f g, (forall y, f y = Rsum (S D) (fun i => c i * lagrange_poly D xs i y)) -> nth_derivative n f g ->
  Rsum (S D) (fun i => v i * c i) = g x2.
Proof.
  intros DIS HV f g Hf Hg. destruct (taylor_family D xs (S D) DIS ltac:(lia) x2) as [TT HT].
  assert (TF : taylor f x2 (S D) (fun k => Rsum (S D) (fun i => c i * TT i k))).
  { apply (taylor_ext (fun y => Rsum (S D) (fun i => c i * lagrange_poly D xs i y))); [intros; now rewrite Hf|].
    now apply taylor_sum. }
  rewrite (taylor_nth n f g x2 (S D) _ TF Hg). rewrite <- Rsum_scal. apply Rsum_ext. intros i Hi.
  destruct (HV i ltac:(lia)) as (gi & Dg & ->). rewrite (taylor_nth n _ gi x2 _ (TT i) (HT i Hi) Dg). ring.
Qed.
Lemma rd_coef coef i : (i < length coef)%nat -> rd coef (Z.of_nat i) = Ok (nth i coef 0).
Proof.
  intros H. unfold rd. destruct (Z.ltb_spec (Z.of_nat i) 0); [lia|]. rewrite Nat2Z.id. now rewrite (nth_error_nth' _ 0).
Qed.
Lemma deriv_spec sc b n coef x : initialised b -> length coef = length (b_knots b) -> in_domain b x ->
  (n <= b_degree b)%nat -> (n <= 20)%nat ->
  exists s x1 x2, (s + b_degree b < length (b_knots b))%nat /\ kn b s <= x1 <= kn b (s + b_degree b) /\
    (x1 = x \/ (b_periodic b = true /\ x1 = x + period b)) /\ evaluated_at b s x1 x2 /\
    ((forall i, (i <= b_degree b)%nat -> tolerance b < Rabs (x1 - kn b (s + i))) -> x2 = x1) /\
    exists g, nth_derivative n (interpolant b s (fun i => nth i coef 0)) g /\ lagrange_deriv sc b n coef x = Ok (g x2).
Proof.
  intros HI HL Hx Hn H20. pose proof (initialised_good b HI) as G.
  destruct (eval1_spec b G sc (Some n) x Hx Hn H20) as ([s v] & x2 & (Hs & x1 & K1 & K2 & K3 & K4 & K5) & E).
  exists s, x1, x2. repeat (split; [assumption|]).
  destruct (taylor_family (b_degree b) (stn b s) (S (b_degree b)) (stn_distinct b G s Hs) ltac:(lia) x2) as [TT HT].
  pose proof (taylor_sum (S (b_degree b)) (lagrange_poly (b_degree b) (stn b s)) (fun i => nth (s + i) coef 0) x2 _ TT HT) as TS.
  exists (fun y => ev (S (b_degree b)) (dseqs n (fun k => Rsum (S (b_degree b)) (fun i => nth (s + i) coef 0 * TT i k))) (y - x2)).
  assert (ND := taylor_exists _ x2 _ _ n TS). split; [exact ND|].
  unfold lagrange_deriv. rewrite (E (rd coef) (fun i => nth i coef 0)) by (intros; apply rd_coef; lia).
  f_equal. cbn [fst snd]. refine (combination (b_degree b) (stn b s) (fun i => nth (s + i) coef 0) n x2 v (stn_distinct b G s Hs) K5 _ _ _ ND).
  reflexivity.
Qed.
Lemma deriv_poly sc b n coef p x g : initialised b -> b_periodic b = false -> length coef = length (b_knots b) -> in_domain b x ->
  (n <= b_degree b)%nat -> (n <= 20)%nat -> (length p <= S (b_degree b))%nat ->
  (forall i, (i < length (b_knots b))%nat -> nth i coef 0 = peval p (kn b i)) -> nth_derivative n (peval p) g ->
  exists x2, lagrange_deriv sc b n coef x = Ok (g x2) /\
    (x2 = x \/ exists i, (i < length (b_knots b))%nat /\ x2 = kn b i /\ Rabs (x - x2) <= tolerance b) /\
    ((forall i, (i < length (b_knots b))%nat -> tolerance b < Rabs (x - kn b i)) -> x2 = x).
Proof.
  intros HI EP HL Hx Hn H20 Hp HC Hg. pose proof (initialised_good b HI) as G.
  destruct (eval1_spec b G sc (Some n) x Hx Hn H20) as ([s v] & x2 & (Hs & x1 & K1 & K2 & K3 & K4 & K5) & E).
  destruct K2 as [->|[C _]]; [|congruence]. exists x2. split; [|split].
  - unfold lagrange_deriv. rewrite (E (rd coef) (fun i => nth i coef 0)) by (intros; apply rd_coef; lia).
    f_equal. cbn [fst snd]. refine (combination (b_degree b) (stn b s) (fun i => nth (s + i) coef 0) n x2 v (stn_distinct b G s Hs) K5 _ _ _ Hg).
    intros y. rewrite <- (poly_sum b G p s y Hp Hs). apply Rsum_ext. intros i Hi. rewrite HC by lia. reflexivity.
  - destruct K3 as [->|(i & Hi & -> & T)]; [now left|]. right. exists (s + i)%nat. split; [lia|auto].
  - intros F. apply K4. intros i Hi. apply F. lia.
Qed.
Lemma deriv_order sc b n coef x : initialised b -> in_domain b x -> (b_degree b < n)%nat ->
  lagrange_deriv sc b n coef x = AssertFail.
Proof.
  intros HI Hx Hn. pose proof (initialised_good b HI) as G. unfold lagrange_deriv, eval1.
  destruct (find_stencil_spec b G x Hx) as (x1 & s & E & H1 & H2 & _). rewrite E. cbn [bind]. unfold basis_row.
  destruct (eval_basis_spec b G s x1 H1 H2) as (x3 & _ & _ & C). rewrite C. cbn [bind].
  destruct (Nat.leb_spec n (b_degree b)); [lia|]. reflexivity.
Qed.

(** ** C67 *)
Lemma head_sum_spec v t D : forall n, (n <= S D)%nat -> forall tail, (forall i, (i < n)%nat -> tail i = Ok (t i)) ->
  head_sum n (map v (seq 0 (S D))) tail = Ok (Rsum n (fun i => v i * t i)).
Proof.
  induction n as [|n IH]; intros Hn tail H; cbn [head_sum Rsum]; [reflexivity|].
  rewrite (IH ltac:(lia)) by (intros; apply H; lia). cbn [bind].
  unfold rd. destruct (Z.ltb_spec (Z.of_nat n) 0); [lia|]. rewrite Nat2Z.id.
  rewrite (nth_error_nth' _ 0) by (rewrite map_length, seq_length; lia). rewrite map_seq_nth by lia. cbn [bind].
  rewrite H by lia. reflexivity.
Qed.
Lemma tensor_ext : forall dims vs x x2 c c', are_dim_values dims x vs x2 ->
  (forall l, coef_index dims l -> c l = c' l) -> tensor_sum dims vs c = tensor_sum dims vs c'.
Proof.
  induction dims as [|(b, o) dims IH]; intros [|(s, v) vs] [|y x] [|y2 x2] c c' A H; cbn [are_dim_values] in A; try contradiction; cbn [tensor_sum].
  - now apply H.
  - destruct A as [(Hs & _) A]. apply Rsum_ext. intros i Hi. f_equal. apply (IH vs x x2); auto.
    intros l Hl. apply H. split; [lia|exact Hl].
Qed.
Lemma nd_spec sc : forall dims x, admissible dims x ->
  exists vs x2, are_dim_values dims x vs x2 /\
    forall cf c, (forall l, coef_index dims l -> cf (map Z.of_nat l) = Ok (c l)) ->
      nd_eval sc dims x cf = Ok (tensor_sum dims vs c).
Proof.
  induction dims as [|(b, o) dims IH]; intros x A; [destruct x; contradiction|].
  destruct x as [|y x]; [destruct dims; cbn in A; contradiction|].
  destruct dims as [|d dims].
  - destruct x as [|]; [|cbn in A; tauto]. destruct A as (HI & Hx & Ho & H20). pose proof (initialised_good b HI) as G.
    destruct (eval1_spec b G sc o y Hx Ho H20) as ([s v] & x2 & V & E).
    exists [(s, v)], [x2]. split; [exact (conj V I)|]. intros cf c HC. cbn [nd_eval tensor_sum].
    rewrite (E (fun i => cf [i]) (fun i => c [i])); [reflexivity|].
    intros i Hi. apply (HC [i]). split; [exact Hi|exact I].
  - change (initialised b /\ in_domain b y /\ (order_of o <= b_degree b)%nat /\ (order_of o <= 20)%nat /\ o <> Some 0%nat /\ admissible (d :: dims) x) in A.
    destruct A as (HI & Hx & Ho & H20 & N0 & A). pose proof (initialised_good b HI) as G.
    destruct (IH x A) as (vs & x2 & VS & E).
    destruct (find_stencil_spec b G y Hx) as (y1 & s & ES & H1 & H2 & H3 & _ & _).
    destruct (row_spec b G sc true o y1 s H1 H2 Ho H20 ltac:(auto)) as (y2 & v & K1 & K2 & K3 & K4).
    exists ((s, v) :: vs), (y2 :: x2). split.
    + split; [|exact VS]. split; [exact H1|]. exists y1. auto.
    + intros cf c HC.
      change (nd_eval sc ((b, o) :: d :: dims) (y :: x) cf) with
        (let* st := find_stencil b y in let '(y1, s) := st in let* vals := basis_row sc true b o y1 s in
         head_sum (S (b_degree b)) vals (fun i => nd_eval sc (d :: dims) x (fun l => cf ((s + Z.of_nat i)%Z :: l)))).
      change (tensor_sum ((b, o) :: d :: dims) ((s, v) :: vs) c) with
        (Rsum (S (b_degree b)) (fun i => v i * tensor_sum (d :: dims) vs (fun l => c ((s + i)%nat :: l)))).
      rewrite ES. cbn [bind]. rewrite K3. cbn [bind].
      rewrite (head_sum_spec v (fun i => tensor_sum (d :: dims) vs (fun l => c ((s + i)%nat :: l))) (b_degree b) (S (b_degree b))); [reflexivity|lia|].
      intros i Hi. apply E. intros l Hl. rewrite <- (HC ((s + i)%nat :: l)).
      * cbn [map]. do 2 f_equal. lia.
      * split; [lia|exact Hl].
Qed.

(** products of polynomials *)
Lemma tensor_lin : forall dims vs x x2 m (a : nat -> R) (f : nat -> list nat -> R), are_dim_values dims x vs x2 ->
  tensor_sum dims vs (fun l => Rsum m (fun q => a q * f q l)) = Rsum m (fun q => a q * tensor_sum dims vs (f q)).
Proof.
  induction dims as [|(b, o) dims IH]; intros [|(s, v) vs] [|y x] [|y2 x2] m a f A; cbn [are_dim_values] in A; try contradiction; cbn [tensor_sum]; [reflexivity|].
  destruct A as [_ A].
  rewrite (Rsum_ext _ _ (fun i => Rsum m (fun q => v i * (a q * tensor_sum dims vs (fun l => f q ((s + i)%nat :: l)))))).
  2:{ intros i _. rewrite (IH vs x x2 m a (fun q l => f q ((s + i)%nat :: l)) A). now rewrite Rsum_scal. }
  rewrite Rsum_swap. apply Rsum_ext. intros q _. rewrite <- Rsum_scal. apply Rsum_ext. intros; ring.
Qed.
Lemma tensor_prod : forall dims vs x x2 (p : nat -> list R) (g : nat -> R -> R), are_dim_values dims x vs x2 ->
  (forall d bo, nth_error dims d = Some bo -> initialised (fst bo) /\ (length (p d) <= S (b_degree (fst bo)))%nat /\
     nth_derivative (order_of (snd bo)) (peval (p d)) (g d)) ->
  tensor_sum dims vs (fun l => prod_upto (length dims) (fun d => peval (p d) (kn (fst (nth d dims no_dim)) (nth d l 0%nat)))) =
  prod_upto (length dims) (fun d => g d (nth d x2 0)).
Proof.
  induction dims as [|(b, o) dims IH]; intros [|(s, v) vs] [|y x] [|y2 x2] p g A H; cbn [are_dim_values] in A; try contradiction; [reflexivity|].
  destruct A as [(Hs & x1 & _ & _ & _ & _ & K5) A]. cbn [tensor_sum length]. rewrite prod_upto_first. cbn [nth].
  destruct (H 0%nat (b, o) eq_refl) as (HI & Lp & Hg). cbn [fst snd] in *. pose proof (initialised_good b HI) as G.
  rewrite <- (IH vs x x2 (fun d => p (S d)) (fun d => g (S d)) A) by (intros d bo Hd; apply (H (S d) bo Hd)).
  set (rest := tensor_sum dims vs _).
  rewrite (Rsum_ext _ _ (fun i => v i * peval (p 0%nat) (kn b (s + i)) * rest)).
  - rewrite Rsum_scal_r. f_equal.
    refine (combination (b_degree b) (stn b s) (fun i => peval (p 0%nat) (kn b (s + i))) (order_of o) y2 v (stn_distinct b G s Hs) K5 _ _ _ Hg).
    intros t. symmetry. now apply (poly_sum b G).
  - intros i Hi. rewrite Rmult_assoc. f_equal. unfold rest.
    transitivity (tensor_sum dims vs (fun l => Rsum 1 (fun q => peval (p 0%nat) (kn b (s + i)) *
       prod_upto (length dims) (fun d => peval (p (S d)) (kn (fst (nth d dims no_dim)) (nth d l 0%nat)))))).
    + apply (tensor_ext dims vs x x2); auto. intros l Hl. cbn [Rsum]. rewrite prod_upto_first. cbn [nth fst]. ring.
    + rewrite (tensor_lin dims vs x x2 1 (fun _ => peval (p 0%nat) (kn b (s + i)))) by auto. cbn [Rsum]. ring.
Qed.
Lemma near_ok : forall dims x vs x2, (forall bo, In bo dims -> b_periodic (fst bo) = false) ->
  are_dim_values dims x vs x2 -> evaluated_near dims x x2.
Proof.
  induction dims as [|(b, o) dims IH]; intros [|y x] [|(s, v) vs] [|y2 x2] NP A; cbn [are_dim_values] in A; try contradiction; [exact I|].
  destruct A as [(Hs & x1 & K1 & K2 & K3 & K4 & _) A]. destruct K2 as [->|[C _]]; [|pose proof (NP (b, o) (or_introl eq_refl)); cbn in *; congruence].
  split; [|split].
  - destruct K3 as [->|(i & Hi & -> & T)]; [now left|]. right. exists (s + i)%nat. split; [lia|auto].
  - intros F. apply K4. intros i Hi. apply F. lia.
  - apply (IH x vs); auto. intros bo Hb. apply NP. now right.
Qed.
