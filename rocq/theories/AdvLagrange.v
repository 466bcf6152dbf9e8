(** The advections with the Lagrange interpolation of src/interpolation (identity builder and Lagrange
    evaluator), on periodic uniform grids: the weights of the interpolation are the same at all the points. *)
From Verif Require Import LagrangeModel LagrangeSpec LagrangeProofs LagrangeStencilProofs LagrangeEvalProofs RestrictProofs.
From Coq Require Import Lia Lra ZifyBool Permutation.
Open Scope R_scope.
Local Opaque Nat.div Nat.modulo.

(** sum over a cyclic shift of the points *)
Lemma Rsum_list n (v : nat -> R) : Rsum n v = fold_right Rplus 0 (map v (seq 0 n)).
Proof.
  induction n as [|n IH]; [reflexivity|]. rewrite seq_S, map_app, fold_right_app. cbn [Rsum map fold_right Nat.add].
  rewrite IH. generalize (map v (seq 0 n)). intros l. induction l as [|a l IHl]; simpl; lra.
Qed.
Lemma fold_right_perm l l' : Permutation l l' -> fold_right Rplus 0 l = fold_right Rplus 0 l'.
Proof. induction 1; simpl; lra. Qed.
Lemma nodup_map_in {A B} (f : A -> B) l : (forall x y, In x l -> In y l -> f x = f y -> x = y) -> NoDup l -> NoDup (map f l).
Proof.
  induction l as [|a r IH]; intros Hf Hn; cbn [map]; constructor; inversion Hn; subst.
  - intros H. apply in_map_iff in H as (y & E & Hy). assert (y = a) by (apply Hf; [right; auto|left; auto|auto]). congruence.
  - apply IH; [|assumption]. intros x y Hx Hy. apply Hf; right; auto.
Qed.
Lemma cyclic_sum N (v : nat -> R) m : (0 < N)%nat ->
  Rsum N (fun i => v (Z.to_nat ((Z.of_nat i + m) mod Z.of_nat N))) = Rsum N v.
Proof.
  intros HN. rewrite !Rsum_list. apply fold_right_perm.
  rewrite <- (map_map (fun i => Z.to_nat ((Z.of_nat i + m) mod Z.of_nat N)) v).
  apply Permutation_map. apply NoDup_Permutation_bis.
  - apply nodup_map_in; [|apply seq_NoDup].
    intros i j Hi Hj E. apply in_seq in Hi, Hj.
    pose proof (Z.mod_pos_bound (Z.of_nat i + m) (Z.of_nat N) ltac:(lia)).
    pose proof (Z.mod_pos_bound (Z.of_nat j + m) (Z.of_nat N) ltac:(lia)).
    assert (E' : ((Z.of_nat i + m) mod Z.of_nat N = (Z.of_nat j + m) mod Z.of_nat N)%Z) by lia.
    pose proof (Z.div_mod (Z.of_nat i + m) (Z.of_nat N) ltac:(lia)).
    pose proof (Z.div_mod (Z.of_nat j + m) (Z.of_nat N) ltac:(lia)).
    set (a := ((Z.of_nat i + m) / Z.of_nat N)%Z) in *. set (b := ((Z.of_nat j + m) / Z.of_nat N)%Z) in *.
    assert (Z.of_nat i - Z.of_nat j = Z.of_nat N * (a - b))%Z by lia.
    assert (a - b = 0)%Z by nia. nia.
  - rewrite map_length. lia.
  - intros k Hk. apply in_map_iff in Hk as (i & <- & Hi). apply in_seq.
    pose proof (Z.mod_pos_bound (Z.of_nat i + m) (Z.of_nat N) ltac:(lia)). lia.
Qed.

Section Uniform.
  Variable b : basis.
  Hypothesis HI : initialised b.
  Hypothesis HS : separated b.
  Hypothesis HU : b_uniform b = true.
  Hypothesis HP : b_periodic b = true.
  Hypothesis HB : (b_degree b + 2 <= b_bp b)%nat.
  Let D := b_degree b.
  Let N := (b_bp b - 1)%nat.
  Let h := b_step b.
  Let G : good b := initialised_good b HI.

  Lemma h_pos : 0 < h. Proof. exact (proj1 (g_uni b G HU)). Qed.
  Lemma kn_uni i : (i <= N + D)%nat -> kn b i = kn b 0 + INR i * h.
  Proof.
    intros H. apply (proj2 (g_uni b G HU)). pose proof (g_len b G) as L. rewrite HP in L. unfold N, D in *. lia.
  Qed.
  Lemma period_uni : period b = INR N * h.
  Proof. unfold period. fold N. rewrite kn_uni by lia. ring. Qed.
  Lemma knots_len : length (b_knots b) = (N + 1 + D)%nat.
  Proof. pose proof (g_len b G) as L. rewrite HP in L. unfold N, D. lia. Qed.

  (** the values of the basis for a coordinate at distance [o] steps of the first knot of its stencil *)
  Definition weights (o : R) : res (list R) :=
    let* on := uniform_check_node D 1 0 o in
    let '(offset, node) := on in
    Ok (if (node =? -1)%Z then barycentric_values D (uniform_weight D) INR offset else node_values D node).

  Lemma eval_basis_uni s o : (s + D <= N + D)%nat -> 0 <= o <= INR D ->
    eval_basis b (kn b s + o * h) (Z.of_nat s) = weights o.
  Proof.
    intros Hs Ho. pose proof h_pos as Hh. unfold eval_basis.
    destruct (stencil_ok b s) as (nodes & EN & LN & HN); [rewrite knots_len; fold D; lia|].
    rewrite EN. cbn [bind]. rewrite (length_ok b G). cbn [bind]. rewrite HU, HP. fold D h.
    rewrite !HN by (fold D; lia). unfold stn. rewrite Nat.add_0_r.
    assert (XD : kn b (s + b_degree b) = kn b s + INR D * h).
    { fold D. rewrite (kn_uni (s + D)), (kn_uni s) by lia. rewrite plus_INR. ring. }
    fold D in XD. rewrite XD.
    assert (0 <= o * h) by (apply Rmult_le_pos; lra).
    assert (o * h <= INR D * h) by (apply Rmult_le_compat_r; lra).
    destruct (Rlt_dec (kn b s + o * h) (kn b s)); [lra|].
    destruct (Rle_dec (kn b s) (kn b s + o * h)); [|lra].
    destruct (Rle_dec (kn b s + o * h) (kn b s + INR D * h)); [|lra].
    unfold weights, uniform_check_node. cbv zeta.
    replace ((kn b s + o * h - kn b s) * (1 / h)) with o by (field; lra).
    replace ((o - 0) * (1 / 1)) with o by field. reflexivity.
  Qed.

  Lemma trunc_at j t : 0 <= t < 1 -> trunc_int (INR j + t) = Z.of_nat j.
  Proof.
    intros Ht. unfold trunc_int. pose proof (pos_INR j).
    destruct (Rle_dec 0 (INR j + t)); [|lra]. apply Int_part_unique. rewrite <- INR_IZR_INZ. lra.
  Qed.
  Lemma round_at j t : 0 <= t < 1 ->
    round_int (INR j + t) = Z.of_nat (j + (if Rle_dec (1 / 2) t then 1 else 0)).
  Proof.
    intros Ht. unfold round_int. pose proof (pos_INR j).
    destruct (Rle_dec 0 (INR j + t)); [|lra]. apply Int_part_unique. rewrite <- INR_IZR_INZ, plus_INR.
    destruct (Rle_dec (1 / 2) t); simpl INR; lra.
  Qed.
  (** position of the reference knot of the stencil with respect to the cell *)
  Definition up (t : R) : nat := if Nat.even D then (if Rle_dec (1 / 2) t then 1 else 0)%nat else 0%nat.
  (** offset of the coordinate in its stencil *)
  Definition off (t : R) : R := t - INR (up t) + INR (D / 2).

  Lemma D_half : (D = 2 * (D / 2) + D mod 2 /\ D mod 2 = (if Nat.even D then 0 else 1))%nat.
  Proof.
    pose proof (Nat.div_mod D 2 ltac:(lia)). split; [lia|].
    destruct (Nat.even D) eqn:E.
    - apply Nat.even_spec in E as [q Eq]. rewrite Eq, Nat.mul_comm, Nat.mod_mul; lia.
    - assert (O : Nat.odd D = true) by (unfold Nat.odd; now rewrite E). apply Nat.odd_spec in O as [q Eq].
      rewrite Eq. replace (2 * q + 1)%nat with (1 + q * 2)%nat by lia. rewrite Nat.mod_add by lia. reflexivity.
  Qed.
  Lemma D_pos : (0 < D)%nat. Proof. exact (g_deg b G). Qed.
  Lemma off_range t : 0 <= t < 1 -> 0 <= off t <= INR D.
  Proof.
    intros Ht. unfold off, up. pose proof D_pos. destruct D_half as [E1 E2].
    destruct (Nat.even D).
    - assert (1 <= D / 2)%nat by lia. assert (1 <= INR (D / 2)) by (apply (le_INR 1); lia).
      assert (INR D = 2 * INR (D / 2)) by (rewrite E1 at 1; rewrite E2, plus_INR, mult_INR; simpl; ring).
      destruct (Rle_dec (1 / 2) t); simpl INR; lra.
    - assert (INR D = 2 * INR (D / 2) + 1) by (rewrite E1 at 1; rewrite E2, plus_INR, mult_INR; simpl; ring).
      pose proof (pos_INR (D / 2)). simpl INR. lra.
  Qed.

  Lemma find_stencil_uni j t : (j < N)%nat -> 0 <= t < 1 ->
    exists s, find_stencil b (kn b 0 + (INR j + t) * h) = Ok (kn b s + off t * h, Z.of_nat s) /\ (s <= N)%nat /\
      exists w, (Z.of_nat s = Z.of_nat j + Z.of_nat (up t) - Z.of_nat (D / 2) + Z.of_nat w * Z.of_nat N)%Z.
  Proof.
    intros Hj Ht. pose proof h_pos as Hh. pose proof D_pos as HD. destruct D_half as [E1 E2].
    pose proof (off_range t Ht) as Hoff.
    assert (HN1 : (D + 1 <= N)%nat) by (unfold N, D; lia).
    unfold find_stencil, get_closest. rewrite HU. fold D h.
    assert (K0 : knot b 0 = Ok (kn b 0)) by (apply (rmin_ok b G)).
    rewrite K0. cbn [bind].
    replace ((kn b 0 + (INR j + t) * h - kn b 0) / h) with (INR j + t) by (field; lra).
    set (c := (j + up t)%nat).
    assert (EC : (if Nat.even D then round_int (INR j + t) else trunc_int (INR j + t)) = Z.of_nat c).
    { unfold c, up. destruct (Nat.even D); [now apply round_at|]. rewrite trunc_at by auto. f_equal. lia. }
    rewrite EC.
    assert (Hc : (c <= N)%nat) by (unfold c, up; destruct (Nat.even D); [destruct (Rle_dec (1/2) t)|]; lia).
    rewrite (knot_ok b) by (rewrite knots_len; lia). cbn [bind].
    rewrite HP. rewrite (length_ok b G). cbn [bind].
    assert (Sx : (- Z.of_nat (D / 2) - Z.of_nat (D mod 2) *
                   (if Rlt_dec (kn b 0 + (INR j + t) * h) (kn b c) then 1 else 0))%Z = (- Z.of_nat (D / 2))%Z).
    { rewrite E2. destruct (Nat.even D) eqn:EV; [lia|].
      assert (c = j) by (unfold c, up; rewrite EV; lia). subst c. rewrite H.
      destruct (Rlt_dec (kn b 0 + (INR j + t) * h) (kn b j)) as [L|]; [|lia].
      rewrite (kn_uni j) in L by lia. exfalso.
      assert (0 <= t * h) by (apply Rmult_le_pos; lra). lra. }
    rewrite Sx. fold N.
    replace (Z.of_nat (b_bp b) - 1 - 0)%Z with (Z.of_nat N) by (unfold N; lia).
    set (w := if (- Z.of_nat (D / 2) <? 0 - Z.of_nat c)%Z then 1%nat else 0%nat).
    replace (if (- Z.of_nat (D / 2) <? 0 - Z.of_nat c)%Z then 1%Z else 0%Z) with (Z.of_nat w)
      by (unfold w; destruct (_ <? _)%Z; reflexivity).
    assert (D / 2 <= D)%nat by (apply Nat.div_le_upper_bound; lia).
    set (s := Z.to_nat (Z.of_nat c + Z.of_nat N * Z.of_nat w + - Z.of_nat (D / 2))%Z).
    assert (Hs : (Z.of_nat s = Z.of_nat c + Z.of_nat N * Z.of_nat w + - Z.of_nat (D / 2))%Z).
    { unfold s. rewrite Z2Nat.id; [reflexivity|]. unfold w. destruct (Z.ltb_spec (- Z.of_nat (D / 2)) (0 - Z.of_nat c)); lia. }
    rewrite <- Hs. exists s.
    assert (Hw : (w = 1 /\ c < D / 2)%nat \/ (w = 0 /\ D / 2 <= c)%nat).
    { unfold w. destruct (Z.ltb_spec (- Z.of_nat (D / 2)) (0 - Z.of_nat c)); [left|right]; lia. }
    assert (HsN : (s <= N)%nat) by lia.
    split; [|split; [exact HsN|exists w; unfold c in Hs; lia]].
    do 2 f_equal.
    assert (RS : INR s = INR c + INR N * INR w - INR (D / 2)).
    { assert (Hn : (s + D / 2 = c + N * w)%nat) by lia. apply (f_equal INR) in Hn.
      rewrite !plus_INR, mult_INR in Hn. lra. }
    rewrite (kn_uni s) by lia. rewrite RS. rewrite period_uni. unfold off.
    assert (RC : INR c = INR j + INR (up t)) by (unfold c; apply plus_INR). rewrite RC.
    destruct Hw as [[-> Hw]|[-> Hw]].
    - replace (Z.of_nat c <? Z.of_nat s)%Z with true by lia. simpl (INR 1). ring.
    - replace (Z.of_nat c <? Z.of_nat s)%Z with false by lia. simpl (INR 0). ring.
  Qed.

  (** the interpolant in the cell j, at the fraction t *)
  Lemma eval_cell lo up_ vals ws j t : length vals = N -> (j < N)%nat -> 0 <= t < 1 ->
    weights (off t) = Ok ws -> length ws = S D ->
    exists coef, identity_builder b vals = Ok coef /\
    lagrange_eval b lo up_ coef (kn b 0 + (INR j + t) * h) =
    Ok (Rsum (S D) (fun k => nth k ws 0 *
          nth (Z.to_nat ((Z.of_nat j + (Z.of_nat (up t) - Z.of_nat (D / 2)) + Z.of_nat k) mod Z.of_nat N)) vals 0)).
  Proof.
    intros HL Hj Ht HW LW. pose proof h_pos as Hh.
    destruct (builder_ok b G vals) as (coef & EB & LC & CI & CP); [rewrite HP; exact HL|intros _; fold D; unfold D; lia|].
    exists coef. split; [exact EB|].
    assert (HD : in_domain b (kn b 0 + (INR j + t) * h)).
    { unfold in_domain. fold N. rewrite (kn_uni N) by lia. pose proof (pos_INR j).
      assert (0 <= (INR j + t) * h) by (apply Rmult_le_pos; lra).
      assert (INR j + 1 <= INR N) by (rewrite <- S_INR; apply le_INR; lia).
      assert ((INR j + t) * h <= INR N * h) by (apply Rmult_le_compat_r; lra). lra. }
    rewrite (lagrange_eval_in b G lo up_ coef _ HD). unfold eval_no_bc.
    destruct (find_stencil_uni j t Hj Ht) as (s & ES & HsN & w & Hw). rewrite ES. cbn [bind].
    rewrite eval_basis_uni by (try lia; now apply off_range). rewrite HW. cbn [bind]. fold D.
    rewrite eval_sum_spec by (rewrite ?LC, ?knots_len; lia). f_equal. apply Rsum_ext. intros k Hk.
    rewrite Rmult_comm. f_equal.
    replace (Z.of_nat j + (Z.of_nat (up t) - Z.of_nat (D / 2)) + Z.of_nat k)%Z
      with (Z.of_nat (s + k) + (- Z.of_nat w) * Z.of_nat N)%Z by lia.
    assert (HN1 : (D + 1 <= N)%nat) by (unfold N, D; lia).
    rewrite Z.mod_add by lia. rewrite <- Nat2Z.inj_mod, Nat2Z.id.
    destruct (lt_dec (s + k) N) as [Hlt|Hge].
    - rewrite Nat.mod_small by lia. apply CI. lia.
    - replace ((s + k) mod N)%nat with (s + k - N)%nat.
      2:{ replace (s + k)%nat with (s + k - N + 1 * N)%nat at 2 by lia. rewrite Nat.mod_add by lia. rewrite Nat.mod_small by lia. reflexivity. }
      rewrite <- CI by lia. rewrite <- (CP HP (s + k - N)%nat) by (fold D; lia). f_equal. fold N. lia.
  Qed.

  Lemma weights_ok t : 0 <= t < 1 -> exists ws, weights (off t) = Ok ws /\ length ws = S D /\
    Rsum (S D) (fun k => nth k ws 0) = 1.
  Proof.
    intros Ht. pose proof h_pos as Hh. pose proof (off_range t Ht) as Ho.
    destruct (basis_sum_one b 0 (kn b 0 + off t * h) HI) as (ws & E & L & S1).
    - rewrite knots_len. fold D. lia.
    - fold D. rewrite (kn_uni (0 + D)) by lia. rewrite Nat.add_0_l.
      assert (0 <= off t * h) by (apply Rmult_le_pos; lra).
      assert (off t * h <= INR D * h) by (apply Rmult_le_compat_r; lra). lra.
    - rewrite eval_basis_uni in E by (auto; lia). exists ws. auto.
  Qed.

  (** a displacement by [d] combines the values of the same neighbours with the same weights at all points *)
  Lemma uniform_stencil d : exists m ws, length ws = S D /\ Rsum (S D) (fun k => nth k ws 0) = 1 /\
    forall lo up_ vals, length vals = N -> exists coef, identity_builder b vals = Ok coef /\
      forall i, (i < N)%nat -> lagrange_eval b lo up_ coef (kn b i - d) =
        Ok (Rsum (S D) (fun k => nth k ws 0 *
              nth (Z.to_nat ((Z.of_nat i + (m + Z.of_nat k)) mod Z.of_nat N)) vals 0)).
  Proof.
    pose proof h_pos as Hh. assert (HN1 : (D + 1 <= N)%nat) by (unfold N, D; lia).
    set (q := Int_part (- d / h)). set (t := - d / h - IZR q).
    assert (Ht : 0 <= t < 1) by (unfold t, q; destruct (base_Int_part (- d / h)); lra).
    destruct (weights_ok t Ht) as (ws & EW & LW & SW).
    exists (q + (Z.of_nat (up t) - Z.of_nat (D / 2)))%Z, ws. split; [exact LW|]. split; [exact SW|].
    intros lo up_ vals HL.
    destruct (builder_ok b G vals) as (coef & EB & LC & CI & CP); [rewrite HP; exact HL|intros _; fold D; unfold D; lia|].
    exists coef. split; [exact EB|]. intros i Hi.
    set (z := (Z.of_nat i + q)%Z).
    pose proof (Z.mod_pos_bound z (Z.of_nat N) ltac:(lia)) as Hz.
    pose proof (Z.div_mod z (Z.of_nat N) ltac:(lia)) as Ez.
    set (j := Z.to_nat (z mod Z.of_nat N)).
    assert (Hj : (j < N)%nat) by (unfold j; lia).
    replace (kn b i - d) with (kn b 0 + (INR j + t) * h + IZR (z / Z.of_nat N) * period b).
    2:{ rewrite (kn_uni i) by lia. rewrite period_uni. rewrite (INR_IZR_INZ j), (INR_IZR_INZ N), (INR_IZR_INZ i).
        unfold j. rewrite Z2Nat.id by lia. replace (z mod Z.of_nat N)%Z with (z - Z.of_nat N * (z / Z.of_nat N))%Z by lia.
        rewrite minus_IZR, mult_IZR. unfold z at 1. rewrite plus_IZR. unfold t. field. lra. }
    rewrite (eval_periodic b G lo up_ coef _ _ HP HS LC (CP HP)).
    destruct (eval_cell lo up_ vals ws j t HL Hj Ht EW LW) as (coef' & EB' & EV).
    assert (coef' = coef) by congruence. subst coef'. rewrite EV. f_equal. apply Rsum_ext. intros k Hk.
    f_equal. f_equal. f_equal. unfold j. rewrite Z2Nat.id by lia.
    replace (z mod Z.of_nat N + (Z.of_nat (up t) - Z.of_nat (D / 2)) + Z.of_nat k)%Z
      with (z mod Z.of_nat N + ((Z.of_nat (up t) - Z.of_nat (D / 2)) + Z.of_nat k))%Z by lia.
    rewrite Zplus_mod_idemp_l. f_equal. unfold z. lia.
  Qed.
End Uniform.
